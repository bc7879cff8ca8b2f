(** Properties C44 and C48: statements only. *)
From Coq Require Import ZArith List Bool Ascii Lia.
From Verif Require Import Base VecModel VecProofs MatModel IoModel IoProofs.
Import ListNotations.
Open Scope Z_scope.

(** C44: what is printed is read back as the same map, whatever follows *)
Theorem C44_round_trip : forall q n (m : vmap Z), m <> [] -> vsorted (S n) m ->
  Forall (fun kc => snd kc mod q = snd kc) m ->
  exists s, print_map m = OK s /\ forall rest, parse_map q (s ++ rest) = OK (m, c_nl :: rest).
Proof. exact map_round_trip. Qed.
Print Assumptions C44_round_trip.

(** C44: any list of monomials and coefficients: the map read has, for each
    exponent vector, the coefficient of its last occurrence and nothing else *)
Theorem C44_last_wins : forall q n ms cs rest, length ms = length cs -> Forall (fun k => length k = S n) ms ->
  Forall (fun c => c mod q = c) cs -> stop rest ->
  exists m, parse_map q (print_vec (print_vec print_Z) ms ++ [c_nl] ++ print_vec print_Z cs ++ rest) = OK (m, rest) /\
    vsorted (S n) m /\
    forall k, length k = S n -> forall c,
      vfind k m = Some c <->
      exists i, (i < length ms)%nat /\ nth i ms [] = k /\ nth i cs 0 = c /\
        forall j, (i < j < length ms)%nat -> nth j ms [] <> k.
Proof.
  intros q n ms cs rest L F Fc St. destruct (parse_map_vec q n ms cs rest L F Fc St) as (m & E & Hs & Hf).
  exists m. split; auto. split; auto. intros k Hk c. rewrite Hf by auto. apply last_coef_spec; auto.
Qed.
Print Assumptions C44_last_wins.

(** an empty map cannot be printed: begin() is dereferenced *)
Theorem C44_empty : print_map [] = Err EUB.
Proof. reflexivity. Qed.
Print Assumptions C44_empty.

Example C44_ex : exists s, print_map [([0; 2], 5); ([1; 1], 0)] = OK s /\
  parse_map 9 s = OK ([([0; 2], 5); ([1; 1], 0)], [c_nl]) /\ length s = 21%nat.
Proof. eexists. split; [reflexivity|]. split; vm_compute; reflexivity. Qed.
Example C44_ex_twice :
  parse_map 9 (print_vec (print_vec print_Z) [[0; 2]; [0; 2]] ++ [c_nl] ++ print_vec print_Z [5; 7]) = OK ([([0; 2], 7)], []).
Proof. vm_compute. reflexivity. Qed.

(** C48: the three ways to call zeta_function build the same map, in which each
    exponent vector has the coefficient of its last occurrence *)
Theorem C48_inputs_agree : forall n p ms cs rest, length ms = length cs -> Forall (fun k => length k = S n) ms -> stop rest ->
  exists m, zeta_input_vectors ms cs = OK m /\ zeta_input_int64 ms cs = OK m /\
    zeta_input_text (print_Z p ++ [c_nl] ++ print_vec (print_vec print_Z) ms ++ [c_nl] ++ print_vec print_Z cs ++ rest) = OK (p, m) /\
    vsorted (S n) m /\
    forall k, length k = S n -> forall c,
      vfind k m = Some c <->
      exists i, (i < length ms)%nat /\ nth i ms [] = k /\ nth i cs 0 = c /\
        forall j, (i < j < length ms)%nat -> nth j ms [] <> k.
Proof.
  intros n p ms cs rest L F St. destruct (zeta_inputs_agree n p ms cs rest L F St) as (m & [Hs Hf] & E1 & E2 & E3).
  exists m. repeat split; auto; rewrite Hf by auto; apply last_coef_spec; auto.
Qed.
Print Assumptions C48_inputs_agree.

(** lists of different lengths are rejected by all of them *)
Theorem C48_lengths : forall n p ms cs rest, length ms <> length cs -> Forall (fun k => length k = S n) ms -> stop rest ->
  zeta_input_vectors ms cs = Err EAssert /\ zeta_input_int64 ms cs = Err EAssert /\
  zeta_input_text (print_Z p ++ [c_nl] ++ print_vec (print_vec print_Z) ms ++ [c_nl] ++ print_vec print_Z cs ++ rest) = Err EAbort.
Proof. exact zeta_inputs_lengths. Qed.
Print Assumptions C48_lengths.

Example C48_ex : zeta_input_text (print_Z 7 ++ [c_nl] ++ print_vec (print_vec print_Z) [[3; 0]; [0; 3]; [3; 0]] ++ [c_nl] ++ print_vec print_Z [1; -2; 4])
  = OK (7, [([0; 3], -2); ([3; 0], 4)]) /\
  zeta_input_vectors [[3; 0]; [0; 3]; [3; 0]] [1; -2; 4] = OK [([0; 3], -2); ([3; 0], 4)].
Proof. split; vm_compute; reflexivity. Qed.
