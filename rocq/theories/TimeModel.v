(** Model of timing.h: the differences of two times that the test programs print.

    timeval and timespec are pairs of integers (time_t, suseconds_t and long are 64
    bits; the values are assumed to fit).  nsec and the constants it is multiplied
    with are of type int: overflow is undefined.  The result, a double in the source,
    is a rational number: rounding is left out. *)
From Coq Require Import ZArith QArith.
From Verif Require Import Base.
Open Scope Z_scope.

(** struct timeval: tv_sec, tv_usec (timing.h 11); struct timespec: tv_sec, tv_nsec (timing.h 58) *)
Definition stamp : Type := Z * Z.
(** timing.h 17, 22: 1000000 * nsec, both of type int; the value of nsec is in range
    if the product is *)
Definition int_micro (nsec : Z) : res Z :=
  _ <- check ((- 2 ^ 31 <=? 1000000 * nsec) && (1000000 * nsec <? 2 ^ 31))%bool EUB ;; OK (1000000 * nsec).

(** timing.h 15-19: the carry *)
Definition carry_up (s e : stamp) : res stamp :=
  if snd e <? snd s then
    let nsec := Z.quot (snd s - snd e) 1000000 + 1 in
    x <- int_micro nsec ;; OK (fst s + nsec, snd s - x)
  else OK s.
(** timing.h 20-24 *)
Definition carry_down (s e : stamp) : res stamp :=
  if 1000000 <? snd e - snd s then
    let nsec := Z.quot (snd e - snd s) 1000000 in
    x <- int_micro nsec ;; OK (fst s - nsec, snd s + x)
  else OK s.
(** timing.h 11-26: timevaldiff_in_seconds; the seconds and the microseconds that
    line 26 adds *)
Definition timeval_parts (s e : stamp) : res (Z * Z) :=
  s <- carry_up s e ;; s <- carry_down s e ;; OK (fst e - fst s, snd e - snd s).
(** timing.h 26 *)
Definition timeval_diff (s e : stamp) : res Q :=
  r <- timeval_parts s e ;; OK (inject_Z (fst r) + inject_Z (snd r) * (1 # 1000000))%Q.
(** timing.h 58-67: timestamp_diff_in_seconds (systems other than Apple's) *)
Definition timespec_parts (s e : stamp) : Z * Z :=
  if snd e - snd s <? 0 then (fst e - fst s - 1, 1000000000 + snd e - snd s)
  else (fst e - fst s, snd e - snd s).
(** timing.h 68 *)
Definition timespec_diff (s e : stamp) : Q :=
  let r := timespec_parts s e in (inject_Z (fst r) + (1 # 1000000000) * inject_Z (snd r))%Q.
