(** An instance of double_ok: k/(log2 k + 1) rounded up. *)
From Coq Require Import ZArith QArith List Lia.
From Verif Require Import Base VecModel ToolsModel MatModel PicardModel PicardSpec.
Import ListNotations.
Open Scope Z_scope.

(** the least c >= c0 with 2^k <= (2k)^c *)
Fixpoint least (fuel : nat) (k c : Z) : Z :=
  match fuel with
  | O => c
  | S fuel => if 2 ^ k <=? (2 * k) ^ c then c else least fuel k (c + 1)
  end.
Definition x_up (k : Z) : Q := inject_Z (if k <=? 2 then 1 else least (Z.to_nat k) k 0).

Lemma least_ok k fuel : forall c0, 2 < k -> 0 <= c0 -> k <= c0 + Z.of_nat fuel -> 2 ^ k <= (2 * k) ^ (least fuel k c0).
Proof.
  induction fuel as [|fuel IH]; intros c0 K C0 C1; cbn [least].
  - apply Z.le_trans with ((2 * k) ^ k); [apply Z.pow_le_mono_l; lia | apply Z.pow_le_mono_r; lia].
  - destruct (Z.leb_spec (2 ^ k) ((2 * k) ^ c0)) as [A|A]; [exact A|]. apply IH; lia.
Qed.

Lemma least_min k fuel : forall c0 c, 2 < k -> 0 <= c0 -> c0 <= c -> c < least fuel k c0 -> (2 * k) ^ c < 2 ^ k.
Proof.
  induction fuel as [|fuel IH]; intros c0 c K C0 C1; cbn [least]; [lia|].
  destruct (Z.leb_spec (2 ^ k) ((2 * k) ^ c0)) as [A|A]; intros H; [lia|].
  destruct (Z.eq_dec c0 c) as [<-|N]; [exact A|]. apply (IH (c0 + 1)); lia.
Qed.

Lemma double_ok_x_up : double_ok x_up.
Proof.
  split; try reflexivity.
  - intros k c K C H. unfold x_up. replace (k <=? 2) with false by (symmetry; apply Z.leb_gt; lia).
    rewrite <- Zle_Qle. destruct (Z.le_gt_cases (least (Z.to_nat k) k 0) c) as [L|L]; [exact L|]. exfalso.
    pose proof (least_min k (Z.to_nat k) 0 c ltac:(lia) ltac:(lia) ltac:(lia) L) as A.
    assert (B : ((2 * k) ^ c) ^ 8 < (2 ^ k) ^ 8).
    { apply Z.pow_lt_mono_l; [lia|]. split; [apply Z.pow_nonneg; lia | exact A]. }
    rewrite <- !Z.pow_mul_r in B by lia.
    assert (D : (2 * k) ^ (7 * c) <= (2 * k) ^ (c * 8)) by (apply Z.pow_le_mono_r; lia).
    rewrite (Z.mul_comm 8 k) in H. apply (Z.lt_irrefl (2 ^ (k * 8))).
    eapply Z.le_lt_trans; [exact H|]. eapply Z.le_lt_trans; [exact D|exact B].
  - intros k c K C H. unfold x_up. replace (k <=? 2) with false by (symmetry; apply Z.leb_gt; lia).
    rewrite <- Zlt_Qlt. destruct (Z.le_gt_cases (least (Z.to_nat k) k 0) c) as [L|L]; [|exact L]. exfalso.
    pose proof (least_ok k (Z.to_nat k) 0 ltac:(lia) ltac:(lia) ltac:(lia)) as A.
    assert (A2 : 2 ^ k <= (2 * k) ^ c) by (eapply Z.le_trans; [exact A|]; apply Z.pow_le_mono_r; lia).
    assert (B : (2 ^ k) ^ 8 <= ((2 * k) ^ c) ^ 8).
    { apply Z.pow_le_mono_l. split; [apply Z.pow_nonneg; lia | exact A2]. }
    rewrite <- !Z.pow_mul_r in B by lia.
    assert (D : 2 ^ (7 * k) <= 2 ^ (k * 8)) by (apply Z.pow_le_mono_r; lia).
    rewrite (Z.mul_comm 8 c) in H. apply (Z.lt_irrefl (2 ^ (7 * k))).
    eapply Z.le_lt_trans; [exact D|]. eapply Z.le_lt_trans; [exact B|exact H].
Qed.

(** multiplication of coefficient lists *)
Fixpoint padd (f g : list Z) : list Z :=
  match f, g with
  | nil, _ => g
  | _, nil => f
  | (a :: f)%list, (b :: g)%list => (a + b :: padd f g)%list
  end.
Fixpoint pmul (f g : list Z) : list Z :=
  match f with nil => nil | (a :: f)%list => padd (List.map (Z.mul a) g) (0 :: pmul f g)%list end.

(** charpoly_frob = (T - 3)^2 (T^2 + 9)(T^2 - T + 9), p = 3: four of the six roots
    are 3 times a root of unity *)
Definition lin3 : list Z := [-3; 1].
Definition quad0 : list Z := [9; 0; 1].
Definition quad1 : list Z := [9; -1; 1].
Definition ex_cs : list Z := pmul (pmul lin3 lin3) (pmul quad0 quad1).
Definition rlin3 : list Z := [-1; 3].
Definition rquad0 : list Z := [1; 0; 9].
Definition rquad1 : list Z := [1; -1; 9].
Definition ex_factor (P : list Z) : list (list Z * Z) := [(rlin3, 2); (rquad0, 1); (rquad1, 1)].

(** the first cyclotomic polynomials *)
Definition cyc_tab (k : Z) : list Z :=
  nth (Z.to_nat k) [[1]; [-1; 1]; [1; 1]; [1; 1; 1]; [1; 0; 1]; [1; 1; 1; 1; 1]; [1; -1; 1]; [1; 1; 1; 1; 1; 1; 1]; [1; 0; 0; 0; 1]] [].

Example C49_ex_run : geometric_picard 100 x_up cyc_tab ex_factor ex_cs 3 2 = OK 5.
Proof. vm_compute. reflexivity. Qed.

(** the assertion fails for the roots 3 and 1 *)
Example C49_ex_assert : geometric_picard 100 x_up cyc_tab (fun _ => [([-1; 3], 1); ([-1; 1], 1)]) (pmul lin3 [-1; 1]) 3 2 = Err EAssert.
Proof. vm_compute. reflexivity. Qed.

Lemma ex_rev : fnorm (rev ex_cs) = pmul (pmul rlin3 rlin3) (pmul rquad0 rquad1).
Proof. vm_compute. reflexivity. Qed.
