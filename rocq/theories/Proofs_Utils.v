From Coq Require Import List ZArith Lia Bool Arith QArith Qround Permutation Lqa Sorted.
From Verif Require Import Py NdArray Model_Utils Spec_Utils.
Import ListNotations.
Local Open Scope Q_scope.
Local Notation length := List.length.

(** ** Order on Q *)
Lemma Qltb_lt a b : Qltb a b = true <-> a < b.
Proof.
  unfold Qltb. rewrite negb_true_iff. split; intros H.
  - apply Qnot_le_lt. intros C. apply Qle_bool_iff in C. congruence.
  - destruct (Qle_bool b a) eqn:E; auto. apply Qle_bool_iff in E. lra.
Qed.
Lemma Qltb_nlt a b : Qltb a b = false <-> b <= a.
Proof.
  unfold Qltb. rewrite negb_false_iff. apply Qle_bool_iff.
Qed.

(** ** Sorting and counting *)
Lemma qinsert_perm x l : Permutation (qinsert x l) (x :: l).
Proof.
  induction l as [|y l IH]; simpl; auto. destruct (Qle_bool x y); auto.
  rewrite IH. apply perm_swap.
Qed.
Lemma qsort_perm l : Permutation (qsort l) l.
Proof. induction l; simpl; auto. rewrite qinsert_perm. auto. Qed.
Lemma qinsert_sorted x l : StronglySorted Qle l -> StronglySorted Qle (qinsert x l).
Proof.
  induction 1 as [|y l Hs IH Hy]; simpl; [repeat constructor|].
  destruct (Qle_bool x y) eqn:E.
  - apply Qle_bool_iff in E. constructor; [now constructor|]. constructor; auto.
    eapply Forall_impl; [|exact Hy]. intros; eapply Qle_trans; eauto.
  - constructor; auto. rewrite Forall_forall in *. intros z Hz.
    eapply Permutation_in in Hz; [|apply qinsert_perm]. destruct Hz as [<-|Hz]; auto.
    apply Qlt_le_weak. apply Qnot_le_lt. intros C. apply Qle_bool_iff in C. congruence.
Qed.
Lemma qsort_sorted l : StronglySorted Qle (qsort l).
Proof. induction l; simpl; [constructor|]. now apply qinsert_sorted. Qed.
Lemma perm_filter {A} (f : A -> bool) l l' : Permutation l l' -> length (filter f l) = length (filter f l').
Proof.
  induction 1; simpl; auto.
  - destruct (f x); simpl; auto.
  - destruct (f x), (f y); simpl; auto.
  - congruence.
Qed.
Lemma qsort_length l : length (qsort l) = length l.
Proof. apply Permutation_length, qsort_perm. Qed.

Lemma filter_all_false {A} (f : A -> bool) l : Forall (fun x => f x = false) l -> filter f l = [].
Proof. induction 1; simpl; auto. now rewrite H. Qed.
Lemma filter_len {A} (f : A -> bool) l : (length (filter f l) <= length l)%nat.
Proof. induction l; simpl; auto. destruct (f a); simpl; lia. Qed.

(** in a sorted list, at least [k+1] entries are at most the entry at [k] *)
Lemma sorted_count l k t : StronglySorted Qle l -> (k < length l)%nat -> nth k l 0 <= t ->
  (length (filter (fun s => Qltb t s) l) + S k <= length l)%nat.
Proof.
  intros H. revert k. induction H as [|x l Hs IH Hx]; intros k Hk Ht; simpl in *; [lia|].
  destruct k as [|k].
  - assert (E : Qltb t x = false) by now apply Qltb_nlt. rewrite E.
    pose proof (filter_len (fun s => Qltb t s) l). lia.
  - assert (Hn : x <= nth k l 0).
    { rewrite Forall_forall in Hx. apply Hx, nth_In. lia. }
    assert (E : Qltb t x = false) by (apply Qltb_nlt; lra). rewrite E.
    specialize (IH k ltac:(lia) Ht). lia.
Qed.

Lemma omega_ge b : 0 <= b -> b <= 1 -> 143 # 100 <= omega b.
Proof. intros H0 H1. unfold omega. nra. Qed.

Lemma beta_range rows cols : (0 < rows)%nat -> (0 < cols)%nat -> 0 <= beta rows cols /\ beta rows cols <= 1.
Proof.
  intros H1 H2. unfold beta.
  set (a := inject_Z (Z.of_nat (Nat.min rows cols))). set (b := inject_Z (Z.of_nat (Nat.max rows cols))).
  assert (Ha : 0 <= a) by (unfold a; change 0 with (inject_Z 0); rewrite <- Zle_Qle; lia).
  assert (Hb : 0 < b) by (unfold b; change 0 with (inject_Z 0); rewrite <- Zlt_Qlt; lia).
  assert (Hab : a <= b) by (unfold a, b; rewrite <- Zle_Qle; lia).
  split.
  - apply Qle_shift_div_l; lra.
  - apply Qle_shift_div_r; lra.
Qed.

Lemma sorted_nth_le l : StronglySorted Qle l -> forall i j, (i <= j)%nat -> (j < length l)%nat -> nth i l 0 <= nth j l 0.
Proof.
  induction 1 as [|x l Hs IH Hx]; simpl; intros i j Hij Hj; [lia|].
  destruct i as [|i], j as [|j]; try lia; [apply Qle_refl| |].
  - rewrite Forall_forall in Hx. apply Hx, nth_In. lia.
  - apply IH; lia.
Qed.

(** at most half of the singular values exceed the threshold *)
Theorem svht_half sigma rows cols : (0 < rows)%nat -> (0 < cols)%nat -> sigma <> [] ->
  Forall (fun s => 0 <= s) sigma ->
  (svht sigma rows cols <= Nat.max 1 (length sigma / 2))%nat /\ (1 <= svht sigma rows cols)%nat.
Proof.
  intros R C Ne Pos. unfold svht.
  set (c := length (filter (fun s => Qltb (tau sigma rows cols) s) sigma)).
  assert (L : (0 < length sigma)%nat) by (destruct sigma; [congruence|simpl; lia]).
  assert (Hc : (c <= length sigma / 2)%nat).
  { unfold c. rewrite (perm_filter _ sigma (qsort sigma)) by (symmetry; apply qsort_perm).
    set (n := length sigma) in *.
    assert (Hk : ((n - 1) / 2 < n)%nat) by (apply Nat.div_lt_upper_bound; lia).
    assert (Hk2 : (n / 2 < n)%nat) by (apply Nat.div_lt_upper_bound; lia).
    assert (Hkk : ((n - 1) / 2 <= n / 2)%nat) by (apply Nat.div_le_mono; lia).
    assert (T : nth ((n - 1) / 2) (qsort sigma) 0 <= tau sigma rows cols).
    { unfold tau. destruct (beta_range rows cols R C) as [B0 B1]. pose proof (omega_ge _ B0 B1) as O.
      set (a := nth ((n - 1) / 2) (qsort sigma) 0). set (b := nth (n / 2) (qsort sigma) 0).
      assert (A0 : 0 <= a).
      { unfold a. rewrite Forall_forall in Pos. apply Pos. eapply Permutation_in; [apply qsort_perm|].
        apply nth_In. now rewrite qsort_length. }
      assert (Ab : a <= b). { apply sorted_nth_le; auto. apply qsort_sorted. now rewrite qsort_length. }
      assert (M : median sigma == (a + b) / 2) by reflexivity.
      assert (M2 : a <= median sigma). { rewrite M. apply Qle_shift_div_l; lra. }
      nra. }
    pose proof (sorted_count (qsort sigma) _ _ (qsort_sorted sigma) ltac:(rewrite qsort_length; exact Hk) T) as Q.
    rewrite qsort_length in Q. fold n in Q.
    pose proof (Nat.div_mod n 2). pose proof (Nat.div_mod (n - 1) 2).
    pose proof (Nat.mod_upper_bound n 2). pose proof (Nat.mod_upper_bound (n - 1) 2). lia. }
  destruct (Nat.eqb_spec c 0); lia.
Qed.

(** ** Scale invariance of the threshold *)
Lemma Qle_bool_scale c x y : 0 < c -> Qle_bool (c * x) (c * y) = Qle_bool x y.
Proof.
  intros Hc. destruct (Qle_bool x y) eqn:E.
  - apply Qle_bool_iff in E. apply Qle_bool_iff. nra.
  - destruct (Qle_bool (c * x) (c * y)) eqn:E2; auto. apply Qle_bool_iff in E2.
    assert (~ x <= y) by (intros H; apply Qle_bool_iff in H; congruence).
    exfalso. apply H. nra.
Qed.
Lemma qinsert_scale c x l : 0 < c -> qinsert (c * x) (map (Qmult c) l) = map (Qmult c) (qinsert x l).
Proof.
  intros Hc. induction l as [|y l IH]; simpl; auto. rewrite Qle_bool_scale by auto.
  destruct (Qle_bool x y); simpl; congruence.
Qed.
Lemma qsort_scale c l : 0 < c -> qsort (map (Qmult c) l) = map (Qmult c) (qsort l).
Proof.
  intros Hc. induction l as [|x l IH]; simpl; auto. rewrite IH. now apply qinsert_scale.
Qed.
Lemma nth_scale c l k : nth k (map (Qmult c) l) 0 == c * nth k l 0.
Proof.
  revert k; induction l as [|x l IH]; intros [|k]; simpl; try ring. apply IH.
Qed.
Lemma median_scale c l : 0 < c -> median (map (Qmult c) l) == c * median l.
Proof.
  intros Hc. unfold median. cbv zeta. rewrite qsort_scale, map_length by auto.
  rewrite !nth_scale. field.
Qed.
Lemma tau_scale c l rows cols : 0 < c -> tau (map (Qmult c) l) rows cols == c * tau l rows cols.
Proof. intros Hc. unfold tau. rewrite median_scale by auto. ring. Qed.
Lemma Qle_bool_comp a a' b b' : a == a' -> b == b' -> Qle_bool a b = Qle_bool a' b'.
Proof. intros H1 H2. now rewrite H1, H2. Qed.
Theorem svht_scale c sigma rows cols : 0 < c ->
  svht (map (Qmult c) sigma) rows cols = svht sigma rows cols.
Proof.
  intros Hc. unfold svht.
  assert (E : length (filter (fun s => Qltb (tau (map (Qmult c) sigma) rows cols) s) (map (Qmult c) sigma)) =
              length (filter (fun s => Qltb (tau sigma rows cols) s) sigma)).
  { set (t' := tau (map (Qmult c) sigma) rows cols). set (t := tau sigma rows cols).
    assert (Ht : t' == c * t) by now apply tau_scale. clearbody t t'.
    induction sigma as [|x l IH]; simpl; auto.
    assert (Q : Qltb t' (c * x) = Qltb t x).
    { unfold Qltb. f_equal. rewrite <- (Qle_bool_scale c x t Hc). now apply Qle_bool_comp. }
    rewrite Q. destruct (Qltb t x); simpl; congruence. }
  now rewrite E.
Qed.

(** ** Fractional rank *)
Lemma qsum_app l l' : qsum (l ++ l') == qsum l + qsum l'.
Proof. induction l; simpl; [ring|rewrite IHl; ring]. Qed.
Lemma qsum_nonneg l : Forall (fun s => 0 <= s) l -> 0 <= qsum l.
Proof. induction 1; simpl; lra. Qed.
Lemma qsum_firstn_le l k : Forall (fun s => 0 <= s) l -> qsum (firstn k l) <= qsum l.
Proof.
  intros H. rewrite <- (firstn_skipn k l) at 2. rewrite qsum_app.
  assert (0 <= qsum (skipn k l)); [|lra]. apply qsum_nonneg.
  rewrite Forall_forall in *. intros x Hx. apply H. rewrite <- (firstn_skipn k l). apply in_or_app; auto.
Qed.
Lemma qsum_firstn_mono l k k' : Forall (fun s => 0 <= s) l -> (k <= k')%nat -> qsum (firstn k l) <= qsum (firstn k' l).
Proof.
  intros H Hk. replace (firstn k l) with (firstn k (firstn k' l)) by (rewrite firstn_firstn; f_equal; lia).
  apply qsum_firstn_le. rewrite Forall_forall in *. intros x Hx. apply H.
  rewrite <- (firstn_skipn k' l). apply in_or_app; auto.
Qed.
Lemma cumsum_nth l a k : (k < length l)%nat -> nth k (cumsum_from a l) 0 == a + qsum (firstn (S k) l).
Proof.
  revert a k; induction l as [|x l IH]; intros a [|k] H; simpl in *; try lia; [ring|].
  rewrite IH by lia. simpl. destruct l; simpl; ring.
Qed.
Lemma cumsum_length a l : length (cumsum_from a l) = length l.
Proof. revert a; induction l; simpl; auto. Qed.
Lemma searchsorted_spec l v :
  (forall k, (k < searchsorted l v)%nat -> nth k l 0 < v) /\
  (searchsorted l v <= length l)%nat /\
  ((searchsorted l v < length l)%nat -> v <= nth (searchsorted l v) l 0).
Proof.
  induction l as [|x l (IH1 & IH2 & IH3)]; simpl; [repeat split; intros; lia|].
  destruct (Qle_bool v x) eqn:E.
  - apply Qle_bool_iff in E. repeat split; intros; auto; lia.
  - assert (x < v). { apply Qnot_le_lt. intros C. apply Qle_bool_iff in C. congruence. }
    repeat split.
    + intros [|k] Hk; auto. apply IH1. lia.
    + lia.
    + intros Hs. apply IH3. lia.
Qed.
Lemma qsum_div l t : qsum (map (fun e => e / t) l) == qsum l / t.
Proof. induction l; simpl; [unfold Qdiv; ring|]. rewrite IHl. unfold Qdiv. ring. Qed.

Lemma energy_firstn sigma k : energy sigma k = qsum (firstn k (map (fun s => s * s) sigma)).
Proof. revert k; induction sigma as [|s t IH]; intros [|k]; simpl; auto. now rewrite IH. Qed.

Lemma squares_nonneg sigma : Forall (fun s => 0 <= s) (map (fun s => s * s) sigma).
Proof. apply Forall_map, Forall_forall. intros; nra. Qed.

Lemma frac_rank sigma rows cols r : 0 < rank_val r -> rank_val r < 1 ->
  0 < energy sigma (length sigma) ->
  let k := compute_rank sigma rows cols r in
  (1 <= k <= length sigma)%nat /\
  rank_val r * energy sigma (length sigma) <= energy sigma k /\
  forall j, (j < k)%nat -> energy sigma j < rank_val r * energy sigma (length sigma).
Proof.
  intros H0 H1 HE. unfold compute_rank. set (v := rank_val r) in *.
  replace (Qeq_bool v 0) with false.
  2: { symmetry. destruct (Qeq_bool v 0) eqn:E; auto. apply Qeq_bool_iff in E. lra. }
  replace (Qltb 0 v && Qltb v 1)%bool with true.
  2: { symmetry. apply andb_true_iff. split; now apply Qltb_lt. }
  set (en := map (fun s => s * s) sigma).
  assert (Len : length en = length sigma) by apply map_length.
  assert (Et : energy sigma (length sigma) == qsum en).
  { rewrite energy_firstn. fold en. rewrite <- Len, firstn_all. reflexivity. }
  set (tot := qsum en) in *.
  replace (Qeq_bool tot 0) with false.
  2: { symmetry. destruct (Qeq_bool tot 0) eqn:E; auto. apply Qeq_bool_iff in E. lra. }
  assert (Tp : 0 < tot) by lra.
  set (c := cumsum (map (fun e => e / tot) en)).
  destruct (searchsorted_spec c v) as (S1 & S2 & S3).
  assert (Lc : length c = length sigma).
  { unfold c, cumsum. now rewrite cumsum_length, map_length. }
  assert (Nc : forall k, (k < length sigma)%nat -> nth k c 0 == energy sigma (S k) / tot).
  { intros k Hk. unfold c, cumsum. rewrite cumsum_nth by (rewrite map_length; lia).
    rewrite firstn_map, qsum_div. rewrite energy_firstn. fold en. ring. }
  set (k := searchsorted c v) in *.
  assert (Kl : (k < length sigma)%nat).
  { rewrite Lc in S2. destruct (Nat.eq_dec k (length sigma)) as [E|N]; [|lia]. exfalso.
    destruct (length sigma) as [|n] eqn:Ln.
    - destruct sigma; [|discriminate]. unfold tot, en in Tp. simpl in Tp. lra.
    - specialize (S1 n ltac:(lia)). rewrite Nc in S1 by lia. rewrite Et in S1.
      assert (tot / tot == 1) by (field; lra). lra. }
  cbv zeta. split; [lia|]. split.
  - specialize (S3 ltac:(lia)). rewrite Nc in S3 by auto. rewrite Et.
    apply Qmult_lt_0_le_reg_r with (/ tot).
    { apply Qinv_lt_0_compat; auto. }
    rewrite <- Qmult_assoc, Qmult_inv_r by lra. unfold Qdiv in S3. lra.
  - intros [|j] Hj.
    + rewrite (energy_firstn sigma 0). simpl. nra.
    + specialize (S1 j ltac:(lia)). rewrite Nc in S1 by lia. rewrite Et.
      assert (Q : energy sigma (S j) == energy sigma (S j) / tot * tot) by (field; lra).
      rewrite Q. nra.
Qed.

Theorem frac_rank_mono sigma rows cols r1 r2 : 0 < rank_val r1 -> rank_val r1 <= rank_val r2 -> rank_val r2 < 1 ->
  0 < energy sigma (length sigma) ->
  (compute_rank sigma rows cols r1 <= compute_rank sigma rows cols r2)%nat.
Proof.
  intros H1 H2 H3 HE.
  destruct (frac_rank sigma rows cols r1 H1 ltac:(lra) HE) as (A1 & A2 & A3).
  destruct (frac_rank sigma rows cols r2 ltac:(lra) H3 HE) as (B1 & B2 & B3).
  destruct (le_lt_dec (compute_rank sigma rows cols r1) (compute_rank sigma rows cols r2)) as [L|L]; auto.
  exfalso. specialize (A3 _ L). nra.
Qed.

Lemma rank_int_case sigma rows cols z : (1 <= z)%Z ->
  compute_rank sigma rows cols (RInt z) = Nat.min (Z.to_nat z) (length sigma).
Proof.
  intros Hz. unfold compute_rank. cbn [rank_val rank_is_int].
  assert (1 <= inject_Z z) by (change 1 with (inject_Z 1); now rewrite <- Zle_Qle).
  replace (Qeq_bool (inject_Z z) 0) with false.
  2: { symmetry. destruct (Qeq_bool (inject_Z z) 0) eqn:E; auto. apply Qeq_bool_iff in E. lra. }
  replace (Qltb (inject_Z z) 1) with false by (symmetry; now apply Qltb_nlt).
  rewrite andb_false_r. replace (Qle_bool 1 (inject_Z z)) with true by (symmetry; now apply Qle_bool_iff).
  reflexivity.
Qed.
Lemma rank_zero_case sigma rows cols r : rank_val r == 0 ->
  compute_rank sigma rows cols r = svht sigma rows cols.
Proof. intros H. unfold compute_rank. now rewrite (proj2 (Qeq_bool_iff _ _) H). Qed.
Lemma rank_other_case sigma rows cols r : rank_val r < 0 \/ (1 <= rank_val r /\ rank_is_int r = false) ->
  compute_rank sigma rows cols r = Nat.min rows cols.
Proof.
  intros H. unfold compute_rank. set (v := rank_val r) in *.
  replace (Qeq_bool v 0) with false.
  2: { symmetry. destruct (Qeq_bool v 0) eqn:E; auto. apply Qeq_bool_iff in E. destruct H; lra. }
  replace (Qltb 0 v && Qltb v 1)%bool with false.
  2: { symmetry. apply andb_false_iff. destruct H as [H|[H _]]; [left|right]; apply Qltb_nlt; lra. }
  destruct H as [H|[H ->]].
  - replace (Qle_bool 1 v) with false; auto. symmetry. destruct (Qle_bool 1 v) eqn:E; auto.
    apply Qle_bool_iff in E. lra.
  - now rewrite andb_false_r.
Qed.

Theorem rank_range sigma rows cols r : (0 < rows)%nat -> (0 < cols)%nat ->
  length sigma = Nat.min rows cols -> Forall (fun s => 0 <= s) sigma ->
  (1 <= compute_rank sigma rows cols r <= Nat.min rows cols)%nat.
Proof.
  intros R C L Pos.
  assert (Ne : sigma <> []) by (intros ->; simpl in L; lia).
  destruct (Qlt_le_dec (rank_val r) 0) as [H|H].
  - rewrite rank_other_case by auto. lia.
  - destruct (Qlt_le_dec 0 (rank_val r)) as [H0|H0].
    + destruct (Qlt_le_dec (rank_val r) 1) as [H1|H1].
      * destruct (Qlt_le_dec 0 (energy sigma (length sigma))) as [HE|HE].
        -- rewrite <- L. apply frac_rank; auto.
        -- unfold compute_rank.
           replace (Qeq_bool (rank_val r) 0) with false.
           2: { symmetry. destruct (Qeq_bool (rank_val r) 0) eqn:E; auto. apply Qeq_bool_iff in E. lra. }
           replace (Qltb 0 (rank_val r) && Qltb (rank_val r) 1)%bool with true.
           2: { symmetry. apply andb_true_iff. split; now apply Qltb_lt. }
           replace (Qeq_bool _ 0) with true; [lia|]. symmetry. apply Qeq_bool_iff.
           rewrite energy_firstn in HE. rewrite <- (map_length (fun s => s * s) sigma), firstn_all in HE.
           pose proof (qsum_nonneg _ (squares_nonneg sigma)). cbv beta in *. lra.
      * destruct r as [z|q].
        -- simpl in H1. change 1 with (inject_Z 1) in H1. rewrite <- Zle_Qle in H1.
           rewrite rank_int_case by auto. lia.
        -- rewrite rank_other_case by (right; auto). lia.
    + rewrite rank_zero_case by lra. destruct (svht_half sigma rows cols R C Ne Pos) as [A B].
      split; auto. assert (length sigma / 2 <= length sigma)%nat by (apply Nat.div_le_upper_bound; lia). lia.
Qed.

(** ** Timesteps *)
Lemma Qceiling_plus1 x : Qceiling (x + 1) = (Qceiling x + 1)%Z.
Proof.
  unfold Qceiling.
  assert (E : - (x + 1) == - x + inject_Z (-1)) by (change (inject_Z (-1)) with (-(1)); ring).
  rewrite (Qfloor_comp _ _ E).
  assert (F : Qfloor (- x + inject_Z (-1)) = (Qfloor (- x) + -1)%Z).
  { unfold Qfloor. destruct (- x) as [n d]. simpl. rewrite Z.mul_1_r.
    replace (n + Z.neg d)%Z with (n + (-1) * Z.pos d)%Z by lia. rewrite Pos.mul_1_r. rewrite Z.div_add by lia. lia. }
  rewrite F. lia.
Qed.
Lemma timesteps_count t0 tend dt : ~ dt == 0 ->
  timesteps t0 tend dt =
  Ok (map (fun k => t0 + inject_Z (Z.of_nat k) * dt) (seq 0 (Z.to_nat (Qceiling ((tend - t0) / dt) + 1)))).
Proof.
  intros H. unfold timesteps, arange.
  replace (Qeq_bool dt 0) with false.
  2: { symmetry. destruct (Qeq_bool dt 0) eqn:E; auto. apply Qeq_bool_iff in E. contradiction. }
  assert (E : (tend + dt - t0) / dt == (tend - t0) / dt + 1) by (field; auto).
  rewrite (Qceiling_comp _ _ E), Qceiling_plus1. reflexivity.
Qed.
Lemma nth_map_seq (f : nat -> Q) n k d : (k < n)%nat -> nth k (map f (seq 0 n)) d = f k.
Proof.
  intros H. rewrite (nth_indep _ d (f 0%nat)) by (rewrite map_length, seq_length; auto).
  rewrite map_nth, seq_nth; auto.
Qed.

Theorem timesteps_spec t0 tend dt : ~ dt == 0 -> 0 <= (tend - t0) / dt ->
  exists ts, timesteps t0 tend dt = Ok ts /\ (0 < length ts)%nat /\
    (forall k, (k < length ts)%nat -> nth k ts 0 == t0 + inject_Z (Z.of_nat k) * dt) /\
    (* the last entry is the first member of the progression at or after tend *)
    (forall k, (k < length ts)%nat ->
       ((tend - t0) / dt <= (nth k ts 0 - t0) / dt <-> k = (length ts - 1)%nat)).
Proof.
  intros H H0. rewrite timesteps_count by auto. eexists. split; [reflexivity|].
  set (c := Qceiling ((tend - t0) / dt)).
  assert (C0 : (0 <= c)%Z). { unfold c. rewrite <- (Qceiling_Z 0). now apply Qceiling_resp_le. }
  rewrite map_length, seq_length. split; [lia|]. split.
  - intros k Hk. rewrite nth_map_seq by auto. reflexivity.
  - intros k Hk. rewrite nth_map_seq by auto.
    assert (E : (t0 + inject_Z (Z.of_nat k) * dt - t0) / dt == inject_Z (Z.of_nat k)) by (field; auto).
    rewrite E. split; intros HH.
    + assert (c <= Z.of_nat k)%Z by (unfold c; rewrite <- (Qceiling_Z (Z.of_nat k)); now apply Qceiling_resp_le).
      lia.
    + replace (Z.of_nat k) with c by lia. apply Qle_ceiling.
Qed.

Theorem timesteps_last t0 tend dt : 0 < dt -> t0 <= tend ->
  exists ts, timesteps t0 tend dt = Ok ts /\ (0 < length ts)%nat /\
    nth 0 ts 0 == t0 /\ tend <= last ts 0 /\ last ts 0 < tend + dt.
Proof.
  intros H H0.
  assert (P : 0 <= (tend - t0) / dt) by (apply Qle_shift_div_l; lra).
  destruct (timesteps_spec t0 tend dt ltac:(lra) P) as (ts & E & L & N & Lst).
  exists ts. split; auto. split; auto.
  split. { rewrite N by auto. simpl. change (inject_Z 0) with 0. ring. }
  assert (La : last ts 0 = nth (length ts - 1) ts 0).
  { clear. induction ts as [|x ts IH]; auto. destruct ts; auto.
    change (last (x :: q :: ts) 0) with (last (q :: ts) 0). rewrite IH.
    replace (length (x :: q :: ts) - 1)%nat with (S (length (q :: ts) - 1)) by (simpl; lia). reflexivity. }
  rewrite La. split.
  - pose proof (proj2 (Lst (length ts - 1)%nat ltac:(lia)) eq_refl) as Q.
    apply (Qmult_le_compat_r _ _ dt) in Q; [|lra].
    unfold Qdiv in Q. rewrite <- !Qmult_assoc, !(Qmult_comm (/ dt)), Qmult_inv_r in Q by lra. lra.
  - rewrite N by lia. rewrite timesteps_count in E by lra. injection E as E.
    assert (Ll : length ts = Z.to_nat (Qceiling ((tend - t0) / dt) + 1)).
    { rewrite <- E, map_length, seq_length. reflexivity. }
    set (c := Qceiling ((tend - t0) / dt)) in *.
    assert (C0 : (0 <= c)%Z). { unfold c. rewrite <- (Qceiling_Z 0). now apply Qceiling_resp_le. }
    replace (Z.of_nat (length ts - 1)) with c by lia.
    assert (Q : inject_Z (c - 1) < (tend - t0) / dt) by (apply Qceiling_lt).
    replace (c - 1)%Z with (c + -1)%Z in Q by lia. rewrite inject_Z_plus in Q. change (inject_Z (-1)) with (-(1)) in Q.
    apply (Qmult_lt_compat_r _ _ dt) in Q; [|lra].
    unfold Qdiv in Q. rewrite <- (Qmult_assoc (tend - t0)), (Qmult_comm (/ dt)), Qmult_inv_r in Q by lra. lra.
Qed.

Theorem timesteps_exact t0 tend dt k : ~ dt == 0 -> tend == t0 + inject_Z (Z.of_nat k) * dt ->
  exists ts, timesteps t0 tend dt = Ok ts /\ length ts = S k /\ nth k ts 0 == tend.
Proof.
  intros H E. rewrite timesteps_count by auto. eexists. split; [reflexivity|].
  assert (Q : (tend - t0) / dt == inject_Z (Z.of_nat k)) by (rewrite E; field; auto).
  rewrite (Qceiling_comp _ _ Q), Qceiling_Z. rewrite map_length, seq_length. split; [lia|].
  rewrite nth_map_seq by lia. now rewrite E.
Qed.

Theorem timesteps_empty t0 tend dt : 0 < dt -> tend <= t0 - dt -> timesteps t0 tend dt = Ok [].
Proof.
  intros H H0. rewrite timesteps_count by lra.
  assert (Q : (tend - t0) / dt <= inject_Z (-1)).
  { apply Qle_shift_div_r; auto. change (inject_Z (-1)) with (-(1)). lra. }
  apply Qceiling_resp_le in Q. rewrite Qceiling_Z in Q.
  replace (Z.to_nat _) with 0%nat by lia. reflexivity.
Qed.

(** ** differentiate *)
Lemma diff_row_length dt row : length (diff_row dt row) = length row.
Proof. unfold diff_row. now rewrite map_length, seq_length. Qed.
Lemma diff_row_nth dt row j : (j < length row)%nat ->
  nth j (diff_row dt row) 0 =
    if Nat.eqb j 0 then ((-(3)) * cell row 0 + 4 * cell row 1 - cell row 2) / (2 * dt)
    else if Nat.eqb j (length row - 1)
         then (3 * cell row (length row - 1) - 4 * cell row (length row - 2) + cell row (length row - 3)) / (2 * dt)
         else (cell row (j + 1) - cell row (j - 1)) / (2 * dt).
Proof. intros H. unfold diff_row. now rewrite nth_map_seq. Qed.

Local Notation Qn := rat.
Lemma Qn_S n : Qn (S n) == Qn n + 1.
Proof. unfold rat. rewrite Nat2Z.inj_succ. unfold Z.succ. rewrite inject_Z_plus. reflexivity. Qed.

Theorem diff_quadratic dt a b c row : ~ dt == 0 -> (3 <= length row)%nat ->
  (forall j, (j < length row)%nat -> cell row j == a + b * (Qn j * dt) + c * (Qn j * dt) * (Qn j * dt)) ->
  forall j, (j < length row)%nat -> nth j (diff_row dt row) 0 == b + 2 * c * (Qn j * dt).
Proof.
  intros H L F j Hj. rewrite diff_row_nth by auto. set (n := length row) in *.
  destruct (Nat.eqb_spec j 0) as [->|N0].
  - rewrite !F by lia. change (Qn 0) with 0. change (Qn 1) with 1. change (Qn 2) with 2. field; auto.
  - destruct (Nat.eqb_spec j (n - 1)) as [->|N1].
    + rewrite !F by lia. 
      assert (E1 : Qn (n - 1) == Qn (n - 3) + 1 + 1).
      { replace (n - 1)%nat with (S (S (n - 3))) by lia. rewrite !Qn_S. reflexivity. }
      assert (E2 : Qn (n - 2) == Qn (n - 3) + 1).
      { replace (n - 2)%nat with (S (n - 3)) by lia. rewrite !Qn_S. reflexivity. }
      rewrite E1, E2. field; auto.
    + rewrite !F by lia.
      assert (E1 : Qn (j + 1) == Qn j + 1) by (replace (j + 1)%nat with (S j) by lia; apply Qn_S).
      assert (E2 : Qn j == Qn (j - 1) + 1) by (replace j with (S (j - 1)) at 1 by lia; apply Qn_S).
      rewrite E1, E2. field; auto.
Qed.

Lemma cell_lincomb u v x y j : length x = length y -> cell (lincomb u v x y) j == u * cell x j + v * cell y j.
Proof.
  unfold cell, lincomb. revert y j; induction x as [|a x IH]; intros [|b y] [|j] H; simpl in *; try discriminate; try ring.
  apply IH. lia.
Qed.
Lemma lincomb_length u v x y : length x = length y -> length (lincomb u v x y) = length x.
Proof. intros H. unfold lincomb. rewrite map_length, combine_length. lia. Qed.
Theorem diff_linear dt u v x y : ~ dt == 0 -> length x = length y ->
  forall j, (j < length x)%nat ->
  nth j (diff_row dt (lincomb u v x y)) 0 == u * nth j (diff_row dt x) 0 + v * nth j (diff_row dt y) 0.
Proof.
  intros Hdt H j Hj. assert (L := lincomb_length u v x y H).
  rewrite !diff_row_nth by lia. rewrite L, <- H.
  destruct (Nat.eqb j 0); [|destruct (Nat.eqb j _)]; rewrite !cell_lincomb by auto; field; auto.
Qed.

(** ** pseudo_hankel *)
Lemma pseudo_hankel_ok {A} (X : nd A) n m d : shape X = [n; m] -> (1 <= d <= m)%nat ->
  exists H, pseudo_hankel X d = Ok H /\ shape H = [(n * d)%nat; (m - d + 1)%nat] /\
    forall k i j, (k < d)%nat -> (i < n)%nat -> (j < m - d + 1)%nat ->
      at_ H [(k * n + i)%nat; j] = at_ X [i; (j + k)%nat].
Proof.
  intros S Hd. unfold pseudo_hankel. rewrite S. unfold windows. cbn [shape transpose]. rewrite S.
  cbn [rev app combine forallb length fst snd Nat.eqb andb].
  destruct (Nat.leb_spec d m); [|lia]. destruct (Nat.leb_spec n n); [|lia]. cbn [andb].
  unfold take_axis1_0. cbn [shape map app fst snd]. eexists. split; [reflexivity|].
  cbn [transpose shape reshape rev app at_].
  assert (Sz : (size [(m - d + 1)%nat; d; n] / (m - d + 1) = n * d)%nat).
  { cbn [size fold_right]. rewrite Nat.mul_1_r, Nat.mul_comm, Nat.div_mul by lia. lia. }
  split. { f_equal. exact Sz. }
  intros k i j Hk Hi Hj. rewrite Sz.
  cbn [ravel size fold_right unravel app].
  rewrite !Nat.mul_1_r, !Nat.add_0_r.
  replace (j * (n * d) + (k * n + i))%nat with ((j * d + k) * n + i)%nat by lia.
  assert (Hn : (n <> 0)%nat) by lia.
  replace (((j * d + k) * n + i) mod (d * n))%nat with (k * n + i)%nat.
  2: { replace ((j * d + k) * n + i)%nat with (k * n + i + j * (d * n))%nat by lia.
       rewrite Nat.mod_add by nia. rewrite Nat.mod_small; nia. }
  replace (((j * d + k) * n + i) / (d * n))%nat with j.
  2: { replace ((j * d + k) * n + i)%nat with (k * n + i + j * (d * n))%nat by lia.
       rewrite Nat.div_add by nia. rewrite Nat.div_small; nia. }
  replace ((k * n + i) / n)%nat with k.
  2: { rewrite Nat.add_comm, Nat.div_add, Nat.div_small by lia. lia. }
  replace ((k * n + i) mod n)%nat with i.
  2: { rewrite Nat.add_comm, Nat.mod_add, Nat.mod_small by lia. lia. }
  rewrite Nat.div_1_r. cbn. reflexivity.
Qed.

(** ** Snapshots *)
Lemma rev_split {A} (l : list A) x r : rev l = x :: r -> l = rev r ++ [x].
Proof. intros H. rewrite <- (rev_involutive l), H. reflexivity. Qed.
Lemma flatten_at {A} (a : nd A) k : at_ (flatten a) [k] = at_ a (unravel (shape a) k).
Proof. unfold flatten, reshape. cbn. now rewrite Nat.mul_1_r, Nat.add_0_r. Qed.

Lemma unravel_snoc s m i j : (i < size s)%nat -> (j < m)%nat -> unravel (s ++ [m]) (i * m + j) = unravel s i ++ [j].
Proof.
  intros Hi Hj. pose proof (unravel_inb _ _ Hi) as I.
  rewrite <- (unravel_ravel (s ++ [m]) (unravel s i ++ [j])).
  - f_equal. rewrite ravel_app by now apply inb_length. rewrite ravel_unravel by auto. simpl. lia.
  - apply inb_app; [now apply inb_length|]. split; auto. simpl. auto.
Qed.

Theorem unroll_array {A} (a : nd A) s m : shape a = s ++ [m] -> s <> [] -> (0 < m)%nat ->
  exists S, unroll (SArr a) = Ok (S, s) /\ shape S = [size s; m] /\
    forall i j, (i < size s)%nat -> (j < m)%nat -> at_ S [i; j] = at_ a (unravel s i ++ [j]).
Proof.
  intros Sh Ne Hm. unfold unroll. rewrite Sh, rev_app_distr. simpl.
  destruct (rev s) as [|x r] eqn:R.
  { apply (f_equal (@rev nat)) in R. rewrite rev_involutive in R. simpl in R. congruence. }
  destruct (Nat.eqb_spec m 0); [lia|].
  eexists. split; [f_equal; f_equal|].
  - now rewrite <- (rev_involutive s), R.
  - assert (Sz : (size (s ++ [m]) / m = size s)%nat).
    { rewrite size_app. simpl. rewrite Nat.mul_1_r. now apply Nat.div_mul. }
    cbn [reshape shape at_]. rewrite Sz. split; auto.
    intros i j Hi Hj. cbn [ravel size fold_right]. rewrite Sh, !Nat.mul_1_r, Nat.add_0_r.
    now rewrite unravel_snoc.
Qed.

Theorem unroll_list {A} (a : nd A) l s : s <> [] -> Forall (fun b => shape b = s) (a :: l) ->
  exists S, unroll (SList (a :: l)) = Ok (S, s) /\ shape S = [size s; length (a :: l)] /\
    forall i j, (i < size s)%nat -> (j < length (a :: l))%nat ->
      at_ S [i; j] = at_ (nth j (a :: l) a) (unravel s i).
Proof.
  intros Ne F. inversion F as [|? ? Sa Fl]; subst. unfold unroll.
  replace (forallb (fun b => shape_eqb (shape b) (shape a)) l) with true.
  2: { symmetry. apply forallb_forall. intros b Hb. rewrite Forall_forall in Fl. rewrite (Fl b Hb).
       unfold shape_eqb. destruct (list_eq_dec _ _ _); congruence. }
  destruct (shape a) as [|x r] eqn:Sa'; [congruence|]. rewrite <- Sa' in *.
  eexists. split; [reflexivity|]. unfold stack_cols. cbn [shape at_]. rewrite map_length. split; auto.
  intros i j Hi Hj. rewrite map_nth. rewrite flatten_at. f_equal.
  assert (Q : shape (nth j (a :: l) a) = shape a); [|now rewrite Q].
  rewrite Forall_forall in F. apply F, nth_In, Hj.
Qed.


Theorem unroll_agree {A} (a : nd A) s m : shape a = s ++ [m] -> s <> [] -> (0 < m)%nat ->
  exists S S', unroll (SArr a) = Ok (S, s) /\
    unroll (SList (map (slice_last a s) (seq 0 m))) = Ok (S', s) /\ nd_eq S S'.
Proof.
  intros Sh Ne Hm. destruct (unroll_array a s m Sh Ne Hm) as (S & E & Shs & At).
  destruct m as [|m]; [lia|]. cbn [seq map].
  destruct (unroll_list (slice_last a s 0) (map (slice_last a s) (seq 1 m)) s Ne) as (S' & E' & Sh' & At').
  { constructor; [reflexivity|]. apply Forall_map, Forall_forall. reflexivity. }
  exists S, S'. split; auto. split; auto.
  cbn [length] in Sh', At'. rewrite map_length, seq_length in Sh', At'.
  split; [congruence|]. intros idx I. rewrite Shs in I.
  destruct idx as [|i [|j [|]]]; simpl in I; try tauto. destruct I as (I & J & _).
  rewrite At, At' by auto.
  change (slice_last a s 0 :: map (slice_last a s) (seq 1 m)) with (map (slice_last a s) (seq 0 (Datatypes.S m))).
  rewrite map_nth, seq_nth by auto. reflexivity.
Qed.

Lemma snapshots_unroll {A} (X : snap_input A) S s n m : unroll X = Ok (S, s) -> shape S = [n; m] ->
  snapshots X = if Nat.eqb m 1 then Err ValueError else Ok (S, s).
Proof. intros E Sh. unfold snapshots. now rewrite E, Sh. Qed.

Lemma count_above_filter t l : length (filter (fun s => Qltb t s) l) = count_above t l.
Proof.
  induction l as [|x l IH]; simpl; auto. destruct (Qlt_le_dec t x) as [H|H].
  - rewrite (proj2 (Qltb_lt t x) H). simpl. now rewrite IH.
  - rewrite (proj2 (Qltb_nlt t x) H). auto.
Qed.
Lemma svht_count sigma rows cols : svht sigma rows cols = Nat.max 1 (count_above (tau sigma rows cols) sigma).
Proof. unfold svht. rewrite count_above_filter. destruct (Nat.eqb_spec (count_above (tau sigma rows cols) sigma) 0); lia. Qed.

(** the median is the middle value of any non-decreasing rearrangement *)
Lemma sorted_unique l l' : Permutation l l' -> StronglySorted Qle l -> StronglySorted Qle l' ->
  forall k, nth k l 0 == nth k l' 0.
Proof.
  intros P S S'. 
  assert (H : forall l l', Permutation l l' -> StronglySorted Qle l -> StronglySorted Qle l' ->
              forall k, (k < length l)%nat -> nth k l' 0 <= nth k l 0).
  { clear. intros l l' P S S' k Hk. apply Qnot_lt_le. intros C.
    set (t := nth k l 0) in *.
    pose proof (sorted_count l k t S Hk (Qle_refl _)) as Q.
    rewrite (perm_filter _ _ _ P) in Q. pose proof (Permutation_length P) as PL.
    assert (Hf : (length l - k <= length (filter (fun s => Qltb t s) l'))%nat).
    { rewrite PL. rewrite <- (firstn_skipn k l') at 2. rewrite filter_app, app_length.
      assert (F : filter (fun s => Qltb t s) (skipn k l') = skipn k l').
      { clear - S' C Hk PL.
        assert (A : Forall (fun s => Qltb t s = true) (skipn k l')).
        { apply Forall_forall. intros x Hx. apply Qltb_lt. apply (In_nth _ _ 0) in Hx. destruct Hx as (j & Hj & <-).
          rewrite skipn_length in Hj.
          assert (E : nth j (skipn k l') 0 = nth (k + j) l' 0).
          { clear. revert k; induction l' as [|a l' IH]; intros [|k]; simpl; auto; destruct j; auto. }
          rewrite E. eapply Qlt_le_trans; [exact C|]. apply sorted_nth_le; auto; lia. }
        induction A as [|x r Hx A IH]; simpl; auto. now rewrite Hx, IH. }
      rewrite F, skipn_length. lia. }
    lia. }
  intros k. destruct (le_lt_dec (length l) k) as [L|L].
  - rewrite !nth_overflow; try reflexivity; auto. now rewrite <- (Permutation_length P).
  - apply Qle_antisym; [apply (H l' l)|apply (H l l')]; auto.
    + now symmetry.
    + now rewrite <- (Permutation_length P).
Qed.
Lemma median_spec sigma s : Permutation s sigma -> StronglySorted Qle s ->
  median sigma == (nth ((length sigma - 1) / 2) s 0 + nth (length sigma / 2) s 0) / 2.
Proof.
  intros P S. unfold median.
  rewrite !(sorted_unique (qsort sigma) s); [reflexivity| |apply qsort_sorted|auto| |apply qsort_sorted|auto];
   rewrite qsort_perm; now symmetry.
Qed.

Lemma timesteps_zero t0 tend dt : dt == 0 -> timesteps t0 tend dt = Err ZeroDivisionError.
Proof. intros H. unfold timesteps, arange. now rewrite (proj2 (Qeq_bool_iff _ _) H). Qed.
Lemma timesteps_overshoot :
  exists t0 tend dt ts, 0 < dt /\ t0 <= tend /\ timesteps t0 tend dt = Ok ts /\
    exists t, In t ts /\ tend < t.
Proof.
  exists 0, 1, (2 # 3), (map (fun k => 0 + inject_Z (Z.of_nat k) * (2 # 3)) (seq 0 3)).
  split; [reflexivity|]. split; [vm_compute; congruence|]. split; [reflexivity|].
  exists (0 + inject_Z (Z.of_nat 2) * (2 # 3)). split; [simpl; auto|]. reflexivity.
Qed.

Lemma optimal_rank sigma rows cols r s : rank_val r == 0 ->
  Permutation s sigma -> StronglySorted Qle s ->
  exists t, compute_rank sigma rows cols r = Nat.max 1 (count_above t sigma) /\
    let n := length sigma in
    let b := rat (Nat.min rows cols) / rat (Nat.max rows cols) in
    t == (nth ((n - 1) / 2) s 0 + nth (n / 2) s 0) / 2 *
         ((56 # 100) * (b * b * b) - (95 # 100) * (b * b) + (182 # 100) * b + (143 # 100)).
Proof.
  intros H P S. exists (tau sigma rows cols). split.
  - rewrite rank_zero_case by auto. apply svht_count.
  - cbv zeta. unfold tau. rewrite (median_spec sigma s P S). reflexivity.
Qed.
Lemma optimal_half sigma rows cols r : rank_val r == 0 ->
  (0 < rows)%nat -> (0 < cols)%nat -> sigma <> [] -> Forall (fun s => 0 <= s) sigma ->
  (1 <= compute_rank sigma rows cols r <= Nat.max 1 (length sigma / 2))%nat.
Proof.
  intros H R C Ne Pos. rewrite rank_zero_case by auto. pose proof (svht_half sigma rows cols R C Ne Pos). tauto.
Qed.
Lemma optimal_scale c sigma rows cols r : rank_val r == 0 -> 0 < c ->
  compute_rank (map (Qmult c) sigma) rows cols r = compute_rank sigma rows cols r.
Proof. intros H Hc. rewrite !rank_zero_case by auto. now apply svht_scale. Qed.

Lemma pseudo_hankel_err {A} (X : nd A) n m d : shape X = [n; m] -> (m < d)%nat ->
  pseudo_hankel X d = Err ValueError.
Proof.
  intros S Hd. unfold pseudo_hankel. rewrite S. unfold windows. cbn [shape transpose]. rewrite S. simpl.
  destruct (Nat.leb_spec d m); [lia|]. reflexivity.
Qed.

Lemma snapshots_array {A} (a : nd A) s m : shape a = s ++ [m] -> s <> [] -> (2 <= m)%nat ->
  exists S, snapshots (SArr a) = Ok (S, s) /\ shape S = [size s; m] /\
    forall i j, (i < size s)%nat -> (j < m)%nat -> at_ S [i; j] = at_ (slice_last a s j) (unravel s i).
Proof.
  intros Sh Ne Hm. destruct (unroll_array a s m Sh Ne ltac:(lia)) as (S & E & ShS & At).
  exists S. rewrite (snapshots_unroll _ _ _ _ _ E ShS). destruct (Nat.eqb_spec m 1); [lia|]. auto.
Qed.
Lemma snapshots_list {A} (a : nd A) l s : s <> [] -> l <> [] -> Forall (fun b => shape b = s) (a :: l) ->
  exists S, snapshots (SList (a :: l)) = Ok (S, s) /\ shape S = [size s; length (a :: l)] /\
    forall i j, (i < size s)%nat -> (j < length (a :: l))%nat ->
      at_ S [i; j] = at_ (nth j (a :: l) a) (unravel s i).
Proof.
  intros Ne Nl F. destruct (unroll_list a l s Ne F) as (S & E & ShS & At).
  exists S. rewrite (snapshots_unroll _ _ _ _ _ E ShS). destruct (Nat.eqb_spec (length (a :: l)) 1) as [C|]; auto.
  destruct l; [congruence|discriminate].
Qed.
Lemma snapshots_agree {A} (a : nd A) s m : shape a = s ++ [m] -> s <> [] -> (2 <= m)%nat ->
  exists S S', snapshots (SArr a) = Ok (S, s) /\
    snapshots (SList (map (slice_last a s) (seq 0 m))) = Ok (S', s) /\ nd_eq S S'.
Proof.
  intros Sh Ne Hm. destruct (unroll_agree a s m Sh Ne ltac:(lia)) as (S & S' & E & E' & Q).
  destruct (unroll_array a s m Sh Ne ltac:(lia)) as (S2 & E2 & ShS & _).
  assert (S2 = S) by congruence. subst S2.
  exists S, S'. rewrite (snapshots_unroll _ _ _ _ _ E ShS), (snapshots_unroll _ _ _ (size s) m E').
  - destruct (Nat.eqb_spec m 1); [lia|]. auto.
  - destruct Q as [Q _]. congruence.
Qed.
Lemma snapshots_recover {A} (a : nd A) s m : shape a = s ++ [m] -> s <> [] -> (2 <= m)%nat ->
  exists S, snapshots (SArr a) = Ok (S, s) /\ forall j, (j < m)%nat ->
    nd_eq (reshape (mkNd [size s] (fun i => at_ S (i ++ [j]))) s) (slice_last a s j).
Proof.
  intros Sh Ne Hm. destruct (snapshots_array a s m Sh Ne Hm) as (S & E & ShS & At).
  exists S. split; auto. intros j Hj. split; auto. intros idx I. simpl in I.
  pose proof (ravel_lt _ _ I) as L. cbn [reshape at_ shape]. cbn [unravel size fold_right]. rewrite Nat.div_1_r.
  cbn [app]. rewrite At by auto. rewrite unravel_ravel by auto. reflexivity.
Qed.

Lemma last_rev {A} (l : list A) d : last l d = hd d (rev l).
Proof. rewrite <- (rev_involutive l) at 1. destruct (rev l); simpl; auto. now rewrite last_last. Qed.

Lemma snapshots_array_rejects {A} (a : nd A) :
  (exists x, snapshots (SArr a) = Err x) <->
  (length (shape a) <= 1)%nat \/ last (shape a) 0%nat = 0%nat \/ last (shape a) 0%nat = 1%nat.
Proof.
  rewrite last_rev. rewrite <- (rev_length (shape a)).
  unfold snapshots, unroll.
  destruct (rev (shape a)) as [|m [|x r]]; simpl.
  - split; [auto|]. intros _. eauto.
  - split; [auto|]. intros _. eauto.
  - destruct (Nat.eqb_spec m 0) as [->|N].
    + split; [auto|eauto].
    + cbn [reshape shape]. destruct (Nat.eqb_spec m 1) as [->|N1].
      * split; [auto|eauto].
      * split; [intros [? ?]; discriminate|]. intros [H|[H|H]]; lia.
Qed.

Lemma snapshots_list_rejects {A} (l : list (nd A)) :
  (exists x, snapshots (SList l) = Err x) <->
  (length l <= 1)%nat \/ (exists a b, In a l /\ In b l /\ shape a <> shape b) \/
  (exists a, In a l /\ shape a = []).
Proof.
  destruct l as [|a l]; [simpl; split; [auto|unfold snapshots; simpl; eauto]|].
  destruct (forallb (fun b => shape_eqb (shape b) (shape a)) l) eqn:F.
  - assert (All : forall b, In b (a :: l) -> shape b = shape a).
    { intros b [<-|Hb]; auto. rewrite forallb_forall in F. specialize (F b Hb). unfold shape_eqb in F.
      destruct (list_eq_dec _ _ _); congruence. }
    destruct (list_eq_dec Nat.eq_dec (shape a) []) as [E|Ne].
    + split; [|intros _; unfold snapshots, unroll; rewrite F, E; eauto]. intros _. right. right. exists a. simpl. auto.
    + destruct l as [|b l].
      * split; [simpl; auto|]. intros _. destruct (unroll_list a [] (shape a) Ne) as (S & ES & ShS & _); [auto|].
        rewrite (snapshots_unroll _ _ _ _ _ ES ShS). simpl. eauto.
      * destruct (snapshots_list a (b :: l) (shape a) Ne ltac:(discriminate)) as (S & ES & _).
        { apply Forall_forall. auto. }
        rewrite ES. split; [intros [? ?]; discriminate|]. intros [H|[(x & y & Hx & Hy & N)|(x & Hx & Q)]].
        -- simpl in H. lia.
        -- rewrite (All x Hx), (All y Hy) in N. congruence.
        -- rewrite (All x Hx) in Q. congruence.
  - split; [|intros _; unfold snapshots, unroll; rewrite F; eauto]. intros _. right. left.
    assert (E : exists b, In b l /\ shape b <> shape a).
    { clear - F. induction l as [|b l IH]; simpl in F; [discriminate|].
      apply andb_false_iff in F. destruct F as [F|F].
      - exists b. split; [simpl; auto|]. unfold shape_eqb in F. destruct (list_eq_dec _ _ _); congruence.
      - destruct (IH F) as (c & H1 & H2). exists c. simpl. auto. }
    destruct E as (b & Hb & N). exists b, a. simpl. auto.
Qed.
Lemma snapshots_error {A} (X : snap_input A) x : snapshots X = Err x ->
  x = ValueError \/ (x = IndexError /\ exists a, X = SArr a /\ shape a = []).
Proof.
  destruct X as [a|[|a l]]; unfold snapshots, unroll.
  - destruct (rev (shape a)) as [|m [|y r]] eqn:R; simpl.
    + intros [= <-]. right. split; auto. exists a. split; auto.
      rewrite <- (rev_involutive (shape a)), R. reflexivity.
    + intros [= <-]; auto.
    + destruct (Nat.eqb m 0); [intros [= <-]; auto|]. cbn [reshape shape].
      destruct (Nat.eqb m 1); [intros [= <-]; auto|discriminate].
  - intros [= <-]; auto.
  - destruct (forallb _ l); [|intros [= <-]; auto]. destruct (shape a); [intros [= <-]; auto|].
    unfold stack_cols. cbn [shape]. destruct (Nat.eqb _ 1); [intros [= <-]; auto|discriminate].
Qed.

Lemma differentiate_one dt row : (3 <= length row)%nat -> differentiate dt [row] = Ok [diff_row dt row].
Proof. intros H. unfold differentiate. cbn [forallb]. rewrite (proj2 (Nat.leb_le 3 (length row)) H). reflexivity. Qed.
Lemma differentiate_quadratic dt a b c row : ~ dt == 0 -> (3 <= length row)%nat ->
  (forall j, (j < length row)%nat -> nth j row 0 == a + b * (rat j * dt) + c * (rat j * dt) * (rat j * dt)) ->
  exists out, differentiate dt [row] = Ok [out] /\ length out = length row /\
    forall j, (j < length row)%nat -> nth j out 0 == b + 2 * c * (rat j * dt).
Proof.
  intros H L F. exists (diff_row dt row). rewrite differentiate_one by auto. split; auto.
  split; [apply diff_row_length|]. now apply diff_quadratic with (a := a).
Qed.
Lemma differentiate_linear dt u v x y : ~ dt == 0 -> length x = length y -> (3 <= length x)%nat ->
  exists dx dy dz, differentiate dt [x] = Ok [dx] /\ differentiate dt [y] = Ok [dy] /\
    differentiate dt [lincomb u v x y] = Ok [dz] /\
    forall j, (j < length x)%nat -> nth j dz 0 == u * nth j dx 0 + v * nth j dy 0.
Proof.
  intros H L L3. exists (diff_row dt x), (diff_row dt y), (diff_row dt (lincomb u v x y)).
  rewrite !differentiate_one by (rewrite ?lincomb_length; lia). repeat split; auto. now apply diff_linear.
Qed.
Lemma differentiate_rows dt X : (forall row, In row X -> (3 <= length row)%nat) ->
  exists D, differentiate dt X = Ok D /\ length D = length X /\
    forall i, (i < length X)%nat -> length (nth i D []) = length (nth i X []) /\
      differentiate dt [nth i X []] = Ok [nth i D []].
Proof.
  intros H. exists (map (diff_row dt) X). split.
  - unfold differentiate. replace (forallb _ X) with true; auto. symmetry. apply forallb_forall.
    intros row Hr. apply Nat.leb_le. auto.
  - rewrite map_length. split; auto. intros i Hi.
    assert (E : nth i (map (diff_row dt) X) [] = diff_row dt (nth i X [])).
    { change [] with (diff_row dt []) at 1. apply map_nth. }
    rewrite E, diff_row_length. split; auto. apply differentiate_one. apply H, nth_In, Hi.
Qed.
Lemma differentiate_short dt X row : In row X -> (length row < 3)%nat -> differentiate dt X = Err IndexError.
Proof.
  intros HI H. unfold differentiate. destruct (forallb _ X) eqn:E; auto.
  rewrite forallb_forall in E. specialize (E row HI). apply Nat.leb_le in E. lia.
Qed.
Lemma differentiate_cubic :
  exists row out, (forall j, (j < length row)%nat -> nth j row 0 == rat j * rat j * rat j) /\
    differentiate 1 [row] = Ok [out] /\
    exists j, (j < length row)%nat /\ ~ nth j out 0 == 3 * (rat j * rat j).
Proof.
  exists [0; 1; 8], (diff_row 1 [0; 1; 8]). split.
  - intros [|[|[|j]]] H; try reflexivity. simpl in H. lia.
  - split; [reflexivity|]. exists 1%nat. split; [simpl; lia|]. vm_compute. congruence.
Qed.
