(** * The depth threshold is the truncated real logarithm of mrdmd.py:482-484 *)
From Coq Require Import ZArith Lia Arith Reals Lra.
From Verif Require Import Py Model_MrDMD.

(** Python's [int(x)]: truncation towards zero *)
Definition truncates (x : R) (k : Z) : Prop :=
  ((0 <= x -> IZR k <= x < IZR k + 1) /\ (x < 0 -> IZR k - 1 < x <= IZR k))%R.

Local Open Scope R_scope.

Lemma ln2_pos : 0 < ln 2.
Proof. rewrite <- ln_1. apply ln_increasing; lra. Qed.

Lemma ln_pow2 n : ln (2 ^ n) = INR n * ln 2.
Proof. apply ln_pow. lra. Qed.

Lemma pow2_INR n : INR (2 ^ n) = 2 ^ n.
Proof. rewrite pow_INR. simpl. reflexivity. Qed.

Lemma ln_le x y : 0 < x -> x <= y -> ln x <= ln y.
Proof. intros H [L|E]; [left; now apply ln_increasing|right; now rewrite E]. Qed.

Lemma lvl_threshold_real T : (1 <= T)%nat ->
  truncates (ln (INR T / 4) / ln 2) (lvl_threshold T - 1).
Proof.
  intros HT. pose proof ln2_pos as L2. unfold lvl_threshold, trunc_log2_quarter.
  assert (H1 : 1 <= INR T) by (change 1 with (INR 1); apply le_INR; lia).
  assert (E4 : ln 4 = 2 * ln 2).
  { replace 4 with (2 ^ 2) by ring. rewrite ln_pow2. simpl. ring. }
  destruct (Nat.leb_spec 4 T) as [H|H].
  - assert (Hq : (1 <= T / 4)%nat) by (apply (Nat.div_le_lower_bound T 4 1); lia).
    destruct (Nat.log2_spec (T / 4)) as [A B]; [lia|].
    set (k := Nat.log2 (T / 4)) in *.
    replace (Z.of_nat k + 1 - 1)%Z with (Z.of_nat k) by lia.
    unfold truncates. rewrite <- INR_IZR_INZ.
    assert (A' : (4 * 2 ^ k <= T)%nat) by (pose proof (Nat.mul_div_le T 4); lia).
    assert (B' : (T < 4 * 2 ^ S k)%nat).
    { pose proof (Nat.mul_succ_div_gt T 4). lia. }
    apply le_INR in A'. apply lt_INR in B'. rewrite mult_INR, pow2_INR in A', B'.
    assert (INR 4 = 4) by (simpl; ring). rewrite H0 in A', B'.
    assert (P : 0 < 2 ^ k) by (apply pow_lt; lra).
    assert (LA : INR k * ln 2 <= ln (INR T / 4)).
    { rewrite <- ln_pow2. apply ln_le; [assumption|]. lra. }
    assert (LB : ln (INR T / 4) < (INR k + 1) * ln 2).
    { rewrite <- S_INR, <- ln_pow2. apply ln_increasing; lra. }
    assert (KA : INR k <= ln (INR T / 4) / ln 2).
    { apply (Rmult_le_reg_r (ln 2)); auto. unfold Rdiv. rewrite Rmult_assoc, Rinv_l by lra. lra. }
    assert (KB : ln (INR T / 4) / ln 2 < INR k + 1).
    { apply (Rmult_lt_reg_r (ln 2)); auto. unfold Rdiv. rewrite Rmult_assoc, Rinv_l by lra. lra. }
    pose proof (pos_INR k). split; intros; [split; auto|]. lra.
  - assert (C : T = 3%nat \/ T = 2%nat \/ T = 1%nat) by lia.
    destruct C as [->|[->| ->]]; simpl Nat.eqb; cbv iota.
    + replace (0 + 1 - 1)%Z with 0%Z by lia.
      replace (INR 3 / 4) with (3 / 4) by (simpl; lra).
      assert (A : ln (3 / 4) < 0) by (rewrite <- ln_1; apply ln_increasing; lra).
      assert (B : - ln 2 < ln (3 / 4)).
      { rewrite <- ln_Rinv by lra. apply ln_increasing; lra. }
      assert (KA : ln (3 / 4) / ln 2 < 0).
      { apply (Rmult_lt_reg_r (ln 2)); auto. unfold Rdiv. rewrite Rmult_assoc, Rinv_l by lra. lra. }
      assert (KB : -1 < ln (3 / 4) / ln 2).
      { apply (Rmult_lt_reg_r (ln 2)); auto. unfold Rdiv. rewrite Rmult_assoc, Rinv_l by lra. lra. }
      split; intros; [lra|]. split; simpl; lra.
    + replace (-1 + 1 - 1)%Z with (-1)%Z by lia.
      replace (INR 2 / 4) with (/ 2) by (simpl; lra). rewrite ln_Rinv by lra.
      assert (K : - ln 2 / ln 2 = -1) by (field; lra). rewrite K.
      split; intros; [lra|]. split; simpl; lra.
    + replace (-2 + 1 - 1)%Z with (-2)%Z by lia.
      replace (INR 1 / 4) with (/ 4) by (simpl; lra). rewrite ln_Rinv, E4 by lra.
      assert (K : - (2 * ln 2) / ln 2 = -2) by (field; lra). rewrite K.
      split; intros; [lra|]. split; simpl; lra.
Qed.
