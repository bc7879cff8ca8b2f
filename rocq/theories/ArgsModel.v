(** Model of tools/default_args.cc: the table of default precisions. *)
From Coq Require Import ZArith List Bool.
From Verif Require Import Base.
Import ListNotations.
Open Scope Z_scope.

(** precision, N and charpoly_prec *)
Definition args : Type := Z * list Z * list Z.

(** tools/default_args.cc 16-26; the brackets exclude each other, the last has
    no upper bound *)
Definition args_2_3 (p : Z) : args :=
  if p <? 5 then (5, [2; 3], [2; 2; 2])
  else if (5 <=? p) && (p <? 17) then (3, [2; 2], [2; 2; 2])
  else (1, [0; 1], [3; 1; 1]).

(** tools/default_args.cc 27-37; the brackets exclude each other, the last has
    no upper bound *)
Definition args_2_4 (p : Z) : args :=
  if p <? 5 then (7, [4; 4], [5; 4; 3; 3; 3; 3; 3])
  else if (5 <=? p) && (p <? 17) then (5, [3; 3], [5; 4; 3; 3; 3; 3; 3])
  else (3, [2; 2], [4; 3; 2; 2; 2; 2; 2]).

(** tools/default_args.cc 38-48; the brackets exclude each other, the last has
    no upper bound *)
Definition args_2_5 (p : Z) : args :=
  if p <? 5 then (12, [6; 6], [10; 9; 8; 7; 6; 5; 5; 5; 5; 5; 5; 5; 5])
  else if (5 <=? p) && (p <? 7) then (9, [4; 5], [9; 8; 7; 6; 5; 4; 4; 4; 4; 4; 4; 4; 4])
  else (7, [4; 4], [9; 8; 7; 6; 5; 4; 4; 4; 4; 4; 4; 4; 4]).

(** tools/default_args.cc 49-62; the brackets exclude each other, the last has
    no upper bound *)
Definition args_2_6 (p : Z) : args :=
  if p <? 5 then (19, [8; 9], [16; 15; 14; 13; 12; 11; 10; 9; 8; 7; 7; 7; 7; 7; 7; 7; 7; 7; 7; 7; 7])
  else if (5 <=? p) && (p <? 7) then (13, [7; 7], [15; 14; 13; 12; 11; 10; 9; 8; 7; 6; 6; 6; 6; 6; 6; 6; 6; 6; 6; 6; 6])
  else if (7 <=? p) && (p <? 11) then (13, [6; 7], [15; 14; 13; 12; 11; 10; 9; 8; 7; 6; 6; 6; 6; 6; 6; 6; 6; 6; 6; 6; 6])
  else (11, [6; 6], [15; 14; 13; 12; 11; 10; 9; 8; 7; 6; 6; 6; 6; 6; 6; 6; 6; 6; 6; 6; 6]).

(** tools/default_args.cc 63-79; the brackets exclude each other, the last has
    no upper bound *)
Definition args_2_7 (p : Z) : args :=
  if p <? 5 then (23, [11; 11], [23; 22; 21; 20; 19; 18; 17; 16; 15; 14; 13; 12; 11; 10; 9; 9; 9; 9; 9; 9; 9; 9; 9; 9; 9; 9; 9; 9; 9; 9; 9])
  else if (5 <=? p) && (p <? 7) then (20, [10; 10], [23; 22; 21; 20; 19; 18; 17; 16; 15; 14; 13; 12; 11; 10; 9; 9; 9; 9; 9; 9; 9; 9; 9; 9; 9; 9; 9; 9; 9; 9; 9])
  else if (7 <=? p) && (p <? 11) then (19, [10; 10], [23; 22; 21; 20; 19; 18; 17; 16; 15; 14; 13; 12; 11; 10; 9; 9; 9; 9; 9; 9; 9; 9; 9; 9; 9; 9; 9; 9; 9; 9; 9])
  else if (11 <=? p) && (p <? 17) then (17, [9; 9], [23; 22; 21; 20; 19; 18; 17; 16; 15; 14; 13; 12; 11; 10; 9; 9; 9; 9; 9; 9; 9; 9; 9; 9; 9; 9; 9; 9; 9; 9; 9])
  else (15, [8; 8], [22; 21; 20; 19; 18; 17; 16; 15; 14; 13; 12; 11; 10; 9; 8; 8; 8; 8; 8; 8; 8; 8; 8; 8; 8; 8; 8; 8; 8; 8; 8]).

(** tools/default_args.cc 80-96; the brackets exclude each other, the last has
    no upper bound *)
Definition args_2_8 (p : Z) : args :=
  if p <? 5 then (30, [14; 14], [32; 31; 30; 29; 28; 27; 26; 25; 24; 23; 22; 21; 20; 19; 18; 17; 16; 15; 14; 13; 12; 12; 12; 12; 12; 12; 12; 12; 12; 12; 12; 12; 12; 12; 12; 12; 12; 12; 12; 12; 12; 12; 12])
  else if (5 <=? p) && (p <? 7) then (26, [13; 13], [32; 31; 30; 29; 28; 27; 26; 25; 24; 23; 22; 21; 20; 19; 18; 17; 16; 15; 14; 13; 12; 12; 12; 12; 12; 12; 12; 12; 12; 12; 12; 12; 12; 12; 12; 12; 12; 12; 12; 12; 12; 12; 12])
  else if (7 <=? p) && (p <? 13) then (25, [13; 13], [32; 31; 30; 29; 28; 27; 26; 25; 24; 23; 22; 21; 20; 19; 18; 17; 16; 15; 14; 13; 12; 12; 12; 12; 12; 12; 12; 12; 12; 12; 12; 12; 12; 12; 12; 12; 12; 12; 12; 12; 12; 12; 12])
  else if (13 <=? p) && (p <? 17) then (25, [12; 13], [32; 31; 30; 29; 28; 27; 26; 25; 24; 23; 22; 21; 20; 19; 18; 17; 16; 15; 14; 13; 12; 12; 12; 12; 12; 12; 12; 12; 12; 12; 12; 12; 12; 12; 12; 12; 12; 12; 12; 12; 12; 12; 12])
  else (21, [11; 11], [31; 30; 29; 28; 27; 26; 25; 24; 23; 22; 21; 20; 19; 18; 17; 16; 15; 14; 13; 12; 11; 11; 11; 11; 11; 11; 11; 11; 11; 11; 11; 11; 11; 11; 11; 11; 11; 11; 11; 11; 11; 11; 11]).

(** tools/default_args.cc 97-113; the brackets exclude each other, the last has
    no upper bound *)
Definition args_2_9 (p : Z) : args :=
  if p <? 5 then (41, [18; 18], [43; 42; 41; 40; 39; 38; 37; 36; 35; 34; 33; 32; 31; 30; 29; 28; 27; 26; 25; 24; 23; 22; 21; 20; 19; 18; 17; 16; 16; 16; 16; 16; 16; 16; 16; 16; 16; 16; 16; 16; 16; 16; 16; 16; 16; 16; 16; 16; 16; 16; 16; 16; 16; 16; 16; 16; 16])
  else if (5 <=? p) && (p <? 7) then (33, [16; 16], [42; 41; 40; 39; 38; 37; 36; 35; 34; 33; 32; 31; 30; 29; 28; 27; 26; 25; 24; 23; 22; 21; 20; 19; 18; 17; 16; 15; 15; 15; 15; 15; 15; 15; 15; 15; 15; 15; 15; 15; 15; 15; 15; 15; 15; 15; 15; 15; 15; 15; 15; 15; 15; 15; 15; 15; 15])
  else if (7 <=? p) && (p <? 11) then (32, [16; 16], [42; 41; 40; 39; 38; 37; 36; 35; 34; 33; 32; 31; 30; 29; 28; 27; 26; 25; 24; 23; 22; 21; 20; 19; 18; 17; 16; 15; 15; 15; 15; 15; 15; 15; 15; 15; 15; 15; 15; 15; 15; 15; 15; 15; 15; 15; 15; 15; 15; 15; 15; 15; 15; 15; 15; 15; 15])
  else if (11 <=? p) && (p <? 17) then (31, [16; 16], [42; 41; 40; 39; 38; 37; 36; 35; 34; 33; 32; 31; 30; 29; 28; 27; 26; 25; 24; 23; 22; 21; 20; 19; 18; 17; 16; 15; 15; 15; 15; 15; 15; 15; 15; 15; 15; 15; 15; 15; 15; 15; 15; 15; 15; 15; 15; 15; 15; 15; 15; 15; 15; 15; 15; 15; 15])
  else (29, [15; 15], [42; 41; 40; 39; 38; 37; 36; 35; 34; 33; 32; 31; 30; 29; 28; 27; 26; 25; 24; 23; 22; 21; 20; 19; 18; 17; 16; 15; 15; 15; 15; 15; 15; 15; 15; 15; 15; 15; 15; 15; 15; 15; 15; 15; 15; 15; 15; 15; 15; 15; 15; 15; 15; 15; 15; 15; 15]).

(** tools/default_args.cc 114-130; the brackets exclude each other, the last has
    no upper bound *)
Definition args_3_4 (p : Z) : args :=
  if p <? 5 then (16, [7; 7; 8], [24; 23; 22; 21; 20; 19; 18; 17; 16; 15; 14; 13; 12; 11; 10; 9; 8; 7; 6; 5; 5; 5])
  else if (5 <=? p) && (p <? 7) then (9, [4; 5; 5], [23; 22; 21; 20; 19; 18; 17; 16; 15; 14; 13; 12; 11; 10; 9; 8; 7; 6; 5; 4; 4; 4])
  else if (7 <=? p) && (p <? 23) then (6, [4; 4; 3], [23; 22; 21; 20; 19; 18; 17; 16; 15; 14; 13; 12; 11; 10; 9; 8; 7; 6; 5; 4; 3; 3])
  else if (23 <=? p) && (p <? 43) then (5, [3; 3; 3], [22; 21; 20; 19; 18; 17; 16; 15; 14; 13; 12; 11; 10; 9; 8; 7; 6; 5; 4; 3; 3; 3])
  else (4, [3; 3; 2], [22; 21; 20; 19; 18; 17; 16; 15; 14; 13; 12; 11; 10; 9; 8; 7; 6; 5; 4; 3; 2; 2]).

(** tools/default_args.cc 131-150; the brackets exclude each other, the last has
    no upper bound *)
Definition args_3_5 (p : Z) : args :=
  if p <? 5 then (21, [11; 11; 10], [58; 56; 54; 52; 51; 50; 49; 48; 47; 46; 45; 44; 43; 42; 41; 40; 39; 38; 37; 36; 35; 34; 33; 32; 31; 30; 29; 28; 27; 26; 25; 24; 23; 22; 21; 20; 19; 18; 17; 16; 15; 14; 13; 12; 11; 10; 9; 8; 7; 7; 7; 7; 7])
  else if (5 <=? p) && (p <? 7) then (17, [8; 8; 9], [57; 55; 53; 51; 50; 49; 48; 47; 46; 45; 44; 43; 42; 41; 40; 39; 38; 37; 36; 35; 34; 33; 32; 31; 30; 29; 28; 27; 26; 25; 24; 23; 22; 21; 20; 19; 18; 17; 16; 15; 14; 13; 12; 11; 10; 9; 8; 7; 7; 7; 7; 7; 7])
  else if (7 <=? p) && (p <? 11) then (14, [8; 8; 7], [57; 55; 53; 51; 50; 49; 48; 47; 46; 45; 44; 43; 42; 41; 40; 39; 38; 37; 36; 35; 34; 33; 32; 31; 30; 29; 28; 27; 26; 25; 24; 23; 22; 21; 20; 19; 18; 17; 16; 15; 14; 13; 12; 11; 10; 9; 8; 7; 6; 6; 6; 6; 6])
  else if (11 <=? p) && (p <? 23) then (12, [7; 7; 6], [57; 55; 53; 51; 50; 49; 48; 47; 46; 45; 44; 43; 42; 41; 40; 39; 38; 37; 36; 35; 34; 33; 32; 31; 30; 29; 28; 27; 26; 25; 24; 23; 22; 21; 20; 19; 18; 17; 16; 15; 14; 13; 12; 11; 10; 9; 8; 7; 6; 6; 6; 6; 6])
  else if (23 <=? p) && (p <? 29) then (11, [6; 6; 6], [56; 54; 52; 50; 49; 48; 47; 46; 45; 44; 43; 42; 41; 40; 39; 38; 37; 36; 35; 34; 33; 32; 31; 30; 29; 28; 27; 26; 25; 24; 23; 22; 21; 20; 19; 18; 17; 16; 15; 14; 13; 12; 11; 10; 9; 8; 7; 6; 6; 6; 6; 6; 6])
  else (10, [6; 6; 5], [56; 54; 52; 50; 49; 48; 47; 46; 45; 44; 43; 42; 41; 40; 39; 38; 37; 36; 35; 34; 33; 32; 31; 30; 29; 28; 27; 26; 25; 24; 23; 22; 21; 20; 19; 18; 17; 16; 15; 14; 13; 12; 11; 10; 9; 8; 7; 6; 5; 5; 5; 5; 5]).

(** tools/default_args.cc 151-171; the brackets exclude each other, the last has
    no upper bound *)
Definition args_3_6 (p : Z) : args :=
  if p <? 5 then (38, [17; 18; 17], [117; 115; 113; 111; 109; 107; 105; 103; 101; 99; 98; 97; 96; 95; 94; 93; 92; 91; 90; 89; 88; 87; 86; 85; 84; 83; 82; 81; 80; 79; 78; 77; 76; 75; 74; 73; 72; 71; 70; 69; 68; 67; 66; 65; 64; 63; 62; 61; 60; 59; 58; 57; 56; 55; 54; 53; 52; 51; 50; 49; 48; 47; 46; 45; 44; 43; 42; 41; 40; 39; 38; 37; 36; 35; 34; 33; 32; 31; 30; 29; 28; 27; 26; 25; 24; 23; 22; 21; 20; 19; 18; 17; 16; 15; 14; 13; 13; 13; 13; 13; 13; 13; 13; 13; 13; 13])
  else if (5 <=? p) && (p <? 7) then (29, [15; 15; 14], [116; 114; 112; 110; 108; 106; 104; 102; 100; 98; 97; 96; 95; 94; 93; 92; 91; 90; 89; 88; 87; 86; 85; 84; 83; 82; 81; 80; 79; 78; 77; 76; 75; 74; 73; 72; 71; 70; 69; 68; 67; 66; 65; 64; 63; 62; 61; 60; 59; 58; 57; 56; 55; 54; 53; 52; 51; 50; 49; 48; 47; 46; 45; 44; 43; 42; 41; 40; 39; 38; 37; 36; 35; 34; 33; 32; 31; 30; 29; 28; 27; 26; 25; 24; 23; 22; 21; 20; 19; 18; 17; 16; 15; 14; 13; 12; 12; 12; 12; 12; 12; 12; 12; 12; 12; 12])
  else if (7 <=? p) && (p <? 11) then (28, [15; 15; 14], [116; 114; 112; 110; 108; 106; 104; 102; 100; 98; 97; 96; 95; 94; 93; 92; 91; 90; 89; 88; 87; 86; 85; 84; 83; 82; 81; 80; 79; 78; 77; 76; 75; 74; 73; 72; 71; 70; 69; 68; 67; 66; 65; 64; 63; 62; 61; 60; 59; 58; 57; 56; 55; 54; 53; 52; 51; 50; 49; 48; 47; 46; 45; 44; 43; 42; 41; 40; 39; 38; 37; 36; 35; 34; 33; 32; 31; 30; 29; 28; 27; 26; 25; 24; 23; 22; 21; 20; 19; 18; 17; 16; 15; 14; 13; 12; 12; 12; 12; 12; 12; 12; 12; 12; 12; 12])
  else if (11 <=? p) && (p <? 17) then (26, [14; 14; 13], [116; 114; 112; 110; 108; 106; 104; 102; 100; 98; 97; 96; 95; 94; 93; 92; 91; 90; 89; 88; 87; 86; 85; 84; 83; 82; 81; 80; 79; 78; 77; 76; 75; 74; 73; 72; 71; 70; 69; 68; 67; 66; 65; 64; 63; 62; 61; 60; 59; 58; 57; 56; 55; 54; 53; 52; 51; 50; 49; 48; 47; 46; 45; 44; 43; 42; 41; 40; 39; 38; 37; 36; 35; 34; 33; 32; 31; 30; 29; 28; 27; 26; 25; 24; 23; 22; 21; 20; 19; 18; 17; 16; 15; 14; 13; 12; 12; 12; 12; 12; 12; 12; 12; 12; 12; 12])
  else if (17 <=? p) && (p <? 23) then (24, [13; 13; 12], [116; 114; 112; 110; 108; 106; 104; 102; 100; 98; 97; 96; 95; 94; 93; 92; 91; 90; 89; 88; 87; 86; 85; 84; 83; 82; 81; 80; 79; 78; 77; 76; 75; 74; 73; 72; 71; 70; 69; 68; 67; 66; 65; 64; 63; 62; 61; 60; 59; 58; 57; 56; 55; 54; 53; 52; 51; 50; 49; 48; 47; 46; 45; 44; 43; 42; 41; 40; 39; 38; 37; 36; 35; 34; 33; 32; 31; 30; 29; 28; 27; 26; 25; 24; 23; 22; 21; 20; 19; 18; 17; 16; 15; 14; 13; 12; 12; 12; 12; 12; 12; 12; 12; 12; 12; 12])
  else (22, [12; 12; 11], [115; 113; 111; 109; 107; 105; 103; 101; 99; 97; 96; 95; 94; 93; 92; 91; 90; 89; 88; 87; 86; 85; 84; 83; 82; 81; 80; 79; 78; 77; 76; 75; 74; 73; 72; 71; 70; 69; 68; 67; 66; 65; 64; 63; 62; 61; 60; 59; 58; 57; 56; 55; 54; 53; 52; 51; 50; 49; 48; 47; 46; 45; 44; 43; 42; 41; 40; 39; 38; 37; 36; 35; 34; 33; 32; 31; 30; 29; 28; 27; 26; 25; 24; 23; 22; 21; 20; 19; 18; 17; 16; 15; 14; 13; 12; 11; 11; 11; 11; 11; 11; 11; 11; 11; 11; 11]).

(** tools/default_args.cc 13-179; the text written to the buffer and read back is
    kept as lists *)
Definition default_args (p n d : Z) : res args :=
  if (n =? 2) && (d =? 3) then OK (args_2_3 p)
  else if (n =? 2) && (d =? 4) then OK (args_2_4 p)
  else if (n =? 2) && (d =? 5) then OK (args_2_5 p)
  else if (n =? 2) && (d =? 6) then OK (args_2_6 p)
  else if (n =? 2) && (d =? 7) then OK (args_2_7 p)
  else if (n =? 2) && (d =? 8) then OK (args_2_8 p)
  else if (n =? 2) && (d =? 9) then OK (args_2_9 p)
  else if (n =? 3) && (d =? 4) then OK (args_3_4 p)
  else if (n =? 3) && (d =? 5) then OK (args_3_5 p)
  else if (n =? 3) && (d =? 6) then OK (args_3_6 p)
  else Err EAbort.
