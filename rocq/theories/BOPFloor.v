(** * Rounding down a fraction of a count *)
From Coq Require Import QArith ZArith Lia Bool.
From Verif Require Import Model_Utils.

Lemma floorP (f : Q) (M b : nat) : (inject_Z 0 < f)%Q ->
  Z.to_nat (Qnum f * Z.of_nat M / Zpos (Qden f)) = b <->
  (inject_Z (Z.of_nat b) <= f * inject_Z (Z.of_nat M))%Q /\ (f * inject_Z (Z.of_nat M) < inject_Z (Z.of_nat (S b)))%Q.
Proof.
destruct f as [p d]; unfold Qle, Qlt, Qmult, inject_Z; cbn [Qnum Qden]; intros Hp.
set (pm := (p * Z.of_nat M)%Z).
assert (Hm : (0 <= pm)%Z) by (unfold pm; nia).
assert (Hd : (0 < Zpos d)%Z) by lia.
rewrite !Z.mul_1_r, Pos.mul_1_r.
assert (H0 := Z.div_mod pm (Zpos d) ltac:(lia)).
assert (H1 := Z.mod_pos_bound pm (Zpos d) Hd).
assert (H2 := Z.div_pos pm (Zpos d) Hm Hd).
split.
- intros H; assert (E : (pm / Zpos d)%Z = Z.of_nat b) by lia.
  rewrite E in H0; split; nia.
- intros [L1 L2].
  assert (E : (pm / Zpos d)%Z = Z.of_nat b); [|lia].
  symmetry; apply (Z.div_unique_pos _ _ _ (pm - Z.of_nat b * Zpos d)%Z); lia.
Qed.

Lemma betweenP (f : Q) : Qltb (inject_Z 0) f && Qltb f (inject_Z 1) = true <-> (inject_Z 0 < f)%Q /\ (f < inject_Z 1)%Q.
Proof.
unfold Qltb; rewrite andb_true_iff, !negb_true_iff, <- !not_true_iff_false, !Qle_bool_iff.
split; intros [A B]; split.
- apply Qnot_le_lt, A.
- apply Qnot_le_lt, B.
- apply Qlt_not_le, A.
- apply Qlt_not_le, B.
Qed.
