From Coq Require Import ZArith List Bool Lia.
From Verif Require Import Py Model_CostsWin Spec_CostsWin.
Import ListNotations.
Local Open Scope Z_scope.


(** what [fl] may return: the exact product, or one less when the quotient was rounded down *)
Definition rounds (fl : Z -> Z -> Z) (times wl : Z) : Prop := fl times wl = times \/ fl times wl = times - 1.

Lemma seq_shift_map a : forall m s, map (fun k => Z.to_nat (Z.of_nat a + Z.of_nat k * 1)) (seq s m) = seq (a + s) m.
Proof. induction m; intros s; simpl; trivial. f_equal. lia. rewrite IHm. f_equal. lia. Qed.

Lemma slice_run (T a b : nat) : (a <= b)%nat -> (b <= T)%nat ->
  slice_positions T (mkSlice (Some (Z.of_nat a)) (Some (Z.of_nat b)) None) = Ok (seq a (b - a)).
Proof.
intros ab bT. unfold slice_positions, slice_len, slice_lo, slice_hi, slice_step, slice_bound, clip. simpl.
assert (Z.of_nat a <? 0 = false) as -> by (apply Z.ltb_ge; lia).
assert (Z.of_nat b <? 0 = false) as -> by (apply Z.ltb_ge; lia).
replace (Z.max 0 (Z.min (Z.of_nat T) (Z.of_nat a))) with (Z.of_nat a) by lia.
replace (Z.max 0 (Z.min (Z.of_nat T) (Z.of_nat b))) with (Z.of_nat b) by lia.
f_equal. destruct (Z.ltb_spec (Z.of_nat a) (Z.of_nat b)).
- rewrite Z.div_1_r. replace (Z.to_nat _) with (b - a)%nat by lia.
  rewrite seq_shift_map. f_equal; lia.
- replace (b - a)%nat with 0%nat by lia. reflexivity.
Qed.

Lemma slice_tail (T w : nat) : (0 < w)%nat -> (w <= T)%nat ->
  slice_positions T (mkSlice (Some (- Z.of_nat w)) None None) = Ok (seq (T - w) w).
Proof.
intros w0 wT. replace (seq (T - w) w) with (seq (T - w) (T - (T - w))) by (f_equal; lia).
rewrite <- (slice_run T (T - w) T) by lia.
unfold slice_positions, slice_len, slice_lo, slice_hi, slice_step, slice_bound, clip. cbn -[Z.add Z.div Z.of_nat Z.ltb Z.max Z.min seq].
assert (- Z.of_nat w <? 0 = true) as -> by (apply Z.ltb_lt; lia).
assert (Z.of_nat (T - w) <? 0 = false) as -> by (apply Z.ltb_ge; lia).
assert (Z.of_nat T <? 0 = false) as -> by (apply Z.ltb_ge; lia).
replace (- Z.of_nat w + Z.of_nat T) with (Z.of_nat (T - w)) by lia.
replace (Z.max 0 (Z.min (Z.of_nat T) (Z.of_nat T))) with (Z.of_nat T) by lia. reflexivity.
Qed.

Section Fit.
Variable fl : Z -> Z -> Z.
Variables (s : wins) (vars : Z) (T w d : nat).
Hypothesis (w0 : (0 < w)%nat) (wT : (w <= T)%nat) (d0 : (0 < d)%nat) (R : rounds fl (Z.of_nat T) (Z.of_nat w)).

(** the number of windows: one more than the quotient of T - w by d, rounded up *)
Definition count : nat := ((T - w + (d - 1)) / d + 1)%nat.

Lemma count_spec : (T - w <= (count - 1) * d)%nat /\ ((count - 1) * d < T - w + d)%nat.
Proof.
unfold count. rewrite Nat.add_sub.
assert (E := Nat.div_mod (T - w + (d - 1)) d ltac:(lia)).
assert (B := Nat.mod_upper_bound (T - w + (d - 1)) d ltac:(lia)).
revert E B. generalize ((T - w + (d - 1)) / d)%nat, ((T - w + (d - 1)) mod d)%nat. intros q r E B. nia.
Qed.
Lemma count_pos : (0 < count)%nat. Proof. unfold count; lia. Qed.

Lemma fit_windowsE : exists b,
  fit_windows fl s vars (Z.of_nat T) (Z.of_nat T) (Z.of_nat w) (Z.of_nat d) =
  (Wins (Some (Z.of_nat w)) (Some (Z.of_nat d)) (Some (Z.of_nat T)) (Some vars) (Some (Z.of_nat count)) (Some b), Ok tt)
  /\ (b = false -> (count - 1) * d = T - w)%nat.
Proof.
destruct count_spec as [A B]. assert (P := count_pos).
unfold fit_windows, build_windows. rewrite Z.eqb_refl. simpl negb. cbv iota.
assert (Z.of_nat w =? 0 = false) as -> by (apply Z.eqb_neq; lia).
assert (Z.of_nat d =? 0 = false) as -> by (apply Z.eqb_neq; lia).
assert (Z.of_nat T <? Z.of_nat w = false) as -> by (apply Z.ltb_ge; lia).
cbv beta iota zeta.
set (n := fl (Z.of_nat T) (Z.of_nat w) - Z.of_nat w).
assert (E := Z.div_mod n (Z.of_nat d) ltac:(lia)).
assert (M := Z.mod_pos_bound n (Z.of_nat d) ltac:(lia)).
revert E M. generalize (n / Z.of_nat d), (n mod Z.of_nat d). intros q r E M.
assert (N : n = Z.of_nat T - Z.of_nat w \/ n = Z.of_nat T - 1 - Z.of_nat w) by (destruct R as [H | H]; unfold n; rewrite H; lia).
destruct (Z.ltb_spec 0 (Z.of_nat T - (Z.of_nat d * (q + 1 - 1) + Z.of_nat w))).
- exists true. split; [|discriminate].
  assert (q + 1 + 1 = Z.of_nat count) as -> by nia. reflexivity.
- exists false. assert (H1 : q + 1 = Z.of_nat count) by nia. rewrite H1. split; [reflexivity|]. intros _. nia.
Qed.

Lemma windowE k : (k < count)%nat ->
  window (fst (fit_windows fl s vars (Z.of_nat T) (Z.of_nat T) (Z.of_nat w) (Z.of_nat d))) k =
  Ok (seq (Nat.min (k * d) (T - w)) w).
Proof.
intros K. destruct fit_windowsE as [b [-> F]]. destruct count_spec as [A B]. assert (P := count_pos).
unfold window, get_window_indices; simpl fst; simpl w_times; simpl w_step; simpl w_length; simpl w_slides; simpl w_nonint.
cbv iota. rewrite Nat2Z.id.
destruct (Z.eqb_spec (Z.of_nat k) (Z.of_nat count - 1)) as [Ek | Nk].
- assert (k = count - 1)%nat by lia. subst k. destruct b; simpl.
  + rewrite slice_tail by lia. f_equal. f_equal. lia.
  + rewrite <- Nat2Z.inj_mul, <- Nat2Z.inj_add. rewrite slice_run by nia.
    specialize (F eq_refl). f_equal. f_equal; nia.
- simpl. assert (k <= count - 2)%nat by lia.
  assert (k * d <= (count - 2) * d)%nat by nia.
  assert (((count - 2) * d + d = (count - 1) * d)%nat) by nia.
  rewrite <- Nat2Z.inj_mul, <- Nat2Z.inj_add. rewrite slice_run by nia. f_equal. f_equal; nia.
Qed.

Lemma start_last k : (k < count)%nat -> (Nat.min (k * d) (T - w) = T - w <-> k = count - 1)%nat.
Proof.
intros K. destruct count_spec as [A B]. split; intros H.
- assert (T - w <= k * d)%nat by lia. nia.
- subst k. lia.
Qed.
End Fit.

Local Open Scope nat_scope.
Local Notation "# n" := (Z.of_nat n) (at level 5, format "# n").
(** the windows a user reads off a fitted object: [get_window_indices(k)] for each of its [n_slides] windows *)
Definition windows_of (s : wins) (l : list (list nat)) : Prop :=
  w_slides s = Some #(length l) /\ forall k ws, nth_error l k = Some ws -> window s k = Ok ws.

Definition listed (T w d : nat) : list (list nat) := map (fun k => seq (Nat.min (k * d) (T - w)) w) (seq 0 (count T w d)).
Lemma listed_length T w d : length (listed T w d) = count T w d.
Proof. unfold listed. now rewrite map_length, seq_length. Qed.
Lemma listed_nth T w d k ws : nth_error (listed T w d) k = Some ws ->
  k < count T w d /\ ws = seq (Nat.min (k * d) (T - w)) w.
Proof.
intros E. assert (K : k < count T w d) by (rewrite <- listed_length; apply nth_error_Some; congruence).
split; trivial. unfold listed in E. rewrite nth_error_map in E.
rewrite (nth_error_nth' _ 0) in E by (now rewrite seq_length). rewrite seq_nth in E by trivial. simpl in E. congruence.
Qed.
Lemma listed_in T w d ws : In ws (listed T w d) -> exists k, k < count T w d /\ ws = seq (Nat.min (k * d) (T - w)) w.
Proof. intros H. destruct (In_nth_error _ _ H) as [k E]. exists k. now apply listed_nth. Qed.

Lemma listed_of fl s vars T w d s' : 0 < w -> w <= T -> 0 < d -> rounds fl #T #w ->
  fit_windows fl s vars #T #T #w #d = (s', Ok tt) -> windows_of s' (listed T w d).
Proof.
intros w0 wT d0 R E. split.
- destruct (fit_windowsE fl s vars T w d w0 wT d0 R) as [b [F _]]. rewrite E in F. injection F as ->.
  now rewrite listed_length.
- intros k ws H. apply listed_nth in H. destruct H as [K ->].
  rewrite <- (windowE fl s vars T w d w0 wT d0 R k K). now rewrite E.
Qed.

Lemma listed_tiling T w d : 0 < w -> w <= T -> 0 < d -> tiling T w d (listed T w d).
Proof.
intros w0 wT d0. assert (P := count_pos T w d). split.
- intros E. assert (L := listed_length T w d). rewrite E in L. simpl in L. lia.
- intros k ws H. now apply listed_nth in H.
- intros k. rewrite listed_length. now apply start_last.
Qed.
