(** * Time intervals of the leaves, windows, alignment with the blocks, depth clamping *)
From Coq Require Import List ZArith Lia Bool Arith QArith Lqa.
From Verif Require Import Py Model_MrDMD Spec_MrDMD Proofs_MrDMD_Tree.
Import ListNotations.
Local Open Scope nat_scope.

Notation qn n := (inject_Z (Z.of_nat n)).

Lemma qn_le a b : (qn a <= qn b)%Q <-> a <= b.
Proof. rewrite <- Zle_Qle. lia. Qed.
Lemma qn_lt a b : (qn a < qn b)%Q <-> a < b.
Proof. rewrite <- Zlt_Qlt. lia. Qed.
Lemma qn_add a b : (qn (a + b) == qn a + qn b)%Q.
Proof. rewrite Nat2Z.inj_add, inject_Z_plus. reflexivity. Qed.
Lemma qn_mul a b : (qn (a * b) == qn a * qn b)%Q.
Proof. rewrite Nat2Z.inj_mul, inject_Z_mult. reflexivity. Qed.

Lemma Qltb_spec a b : Qltb a b = true <-> (a < b)%Q.
Proof.
  unfold Qltb. rewrite negb_true_iff. split; intros H.
  - apply Qnot_le_lt. intros X. apply Qle_bool_iff in X. congruence.
  - destruct (Qle_bool b a) eqn:E; auto. apply Qle_bool_iff in E.
    exfalso. apply (Qlt_not_le _ _ H E).
Qed.

Lemma interval_ok ml T0 Tend l k :
  l <= ml -> k < 2 ^ l ->
  exists iv, partial_time_interval ml T0 Tend l k = Ok iv /\
    (iv_delta iv == (Tend - T0) / qn (2 ^ l))%Q /\
    (iv_t0 iv == T0 + iv_delta iv * qn k)%Q /\ (iv_tend iv == T0 + iv_delta iv * qn (k + 1))%Q.
Proof.
  intros Hl Hk. unfold partial_time_interval.
  destruct (Nat.ltb_spec ml l); [lia|]. destruct (Nat.leb_spec (2 ^ l) k); [lia|].
  eexists. split; [reflexivity|]. cbn [iv_t0 iv_tend iv_delta].
  split; [reflexivity|split; [reflexivity|]]. rewrite qn_add. change (qn 1) with 1%Q. ring.
Qed.

Lemma interval_err ml T0 Tend l k :
  ml < l \/ 2 ^ l <= k -> partial_time_interval ml T0 Tend l k = Err ValueError.
Proof.
  intros H. unfold partial_time_interval.
  destruct (Nat.ltb_spec ml l); auto. destruct (Nat.leb_spec (2 ^ l) k); auto. lia.
Qed.

Lemma pow2_Q l : (0 < qn (2 ^ l))%Q.
Proof. change 0%Q with (qn 0). apply qn_lt. pose proof (pow2_pos l). lia. Qed.

Lemma delta_mul T0 Tend l : ((Tend - T0) / qn (2 ^ l) * qn (2 ^ l) == Tend - T0)%Q.
Proof. pose proof (pow2_Q l). field. lra. Qed.

Lemma delta_pos T0 Tend l : (T0 < Tend)%Q -> (0 < (Tend - T0) / qn (2 ^ l))%Q.
Proof.
  intros H. apply Qlt_shift_div_l; [apply pow2_Q|]. lra.
Qed.

(** contiguity *)
Lemma tile_first ml T0 Tend l :
  l <= ml -> exists iv, partial_time_interval ml T0 Tend l 0 = Ok iv /\ (iv_t0 iv == T0)%Q.
Proof.
  intros H. destruct (interval_ok ml T0 Tend l 0 H) as (iv & E & _ & E0 & _).
  { pose proof (pow2_pos l). lia. }
  exists iv. split; auto. rewrite E0. change (qn 0) with 0%Q. ring.
Qed.

Lemma tile_last ml T0 Tend l :
  l <= ml -> exists iv, partial_time_interval ml T0 Tend l (2 ^ l - 1) = Ok iv /\ (iv_tend iv == Tend)%Q.
Proof.
  intros H. pose proof (pow2_pos l).
  destruct (interval_ok ml T0 Tend l (2 ^ l - 1) H) as (iv & E & D & _ & E1); [lia|].
  exists iv. split; auto. rewrite E1, D. replace (2 ^ l - 1 + 1) with (2 ^ l) by lia.
  rewrite delta_mul. ring.
Qed.

Lemma tile_next ml T0 Tend l k :
  l <= ml -> k + 1 < 2 ^ l ->
  exists a b, partial_time_interval ml T0 Tend l k = Ok a /\
    partial_time_interval ml T0 Tend l (k + 1) = Ok b /\ (iv_tend a == iv_t0 b)%Q.
Proof.
  intros Hl Hk.
  destruct (interval_ok ml T0 Tend l k Hl) as (a & Ea & Da & _ & Ta); [lia|].
  destruct (interval_ok ml T0 Tend l (k + 1) Hl) as (b & Eb & Db & Tb & _); [lia|].
  exists a, b. repeat split; auto. rewrite Ta, Tb, Da, Db. reflexivity.
Qed.

Lemma tile_cover ml T0 Tend l t :
  l <= ml -> (T0 <= t)%Q -> (t < Tend)%Q ->
  exists k iv, k < 2 ^ l /\ partial_time_interval ml T0 Tend l k = Ok iv /\ in_interval iv t.
Proof.
  intros Hl H0 H1.
  assert (G : forall n, n <= 2 ^ l -> (t < T0 + (Tend - T0) / qn (2 ^ l) * qn n)%Q ->
     exists k iv, k < n /\ partial_time_interval ml T0 Tend l k = Ok iv /\ in_interval iv t).
  { induction n as [|n IH]; intros Hn Ht.
    - change (qn 0) with 0%Q in Ht. lra.
    - destruct (Qlt_le_dec t (T0 + (Tend - T0) / qn (2 ^ l) * qn n)) as [C|C].
      + destruct IH as (k & iv & Hk & R); auto; [lia|]. exists k, iv. split; [lia|auto].
      + destruct (interval_ok ml T0 Tend l n Hl) as (iv & E & D & E0 & E1); [lia|].
        exists n, iv. repeat split; auto.
        * rewrite E0, D. exact C.
        * rewrite E1, D. now rewrite Nat.add_1_r. }
  destruct (G (2 ^ l)) as (k & iv & R); auto.
  - rewrite delta_mul. lra.
  - exists k, iv. exact R.
Qed.

Lemma tile_disjoint ml T0 Tend l k k' iv iv' t :
  (T0 < Tend)%Q ->
  partial_time_interval ml T0 Tend l k = Ok iv -> partial_time_interval ml T0 Tend l k' = Ok iv' ->
  in_interval iv t -> in_interval iv' t -> k = k'.
Proof.
  intros HT E E' [A B] [A' B'].
  assert (Hl : l <= ml /\ k < 2 ^ l /\ k' < 2 ^ l).
  { unfold partial_time_interval in E, E'.
    destruct (Nat.ltb_spec ml l); [discriminate|]. destruct (Nat.leb_spec (2 ^ l) k); [discriminate|].
    destruct (Nat.leb_spec (2 ^ l) k'); [discriminate|]. lia. }
  destruct Hl as (Hl & Hk & Hk').
  destruct (interval_ok ml T0 Tend l k Hl Hk) as (j & F & D & F0 & F1).
  destruct (interval_ok ml T0 Tend l k' Hl Hk') as (j' & F' & D' & F0' & F1').
  assert (j = iv) by congruence. assert (j' = iv') by congruence. subst j j'.
  rewrite F0, D in A. rewrite F1, D in B. rewrite F0', D' in A'. rewrite F1', D' in B'.
  pose proof (delta_pos T0 Tend l HT) as HD. set (d := ((Tend - T0) / qn (2 ^ l))%Q) in *.
  assert (G : forall a b, (T0 + d * qn a <= t)%Q -> (t < T0 + d * qn (b + 1))%Q -> a <= b).
  { intros a b X Y. assert (a < b + 1); [|lia]. apply qn_lt.
    assert (d * qn a < d * qn (b + 1))%Q by lra.
    apply (Qmult_lt_l (qn a) (qn (b + 1)) d); auto. }
  pose proof (G k k' A B'). pose proof (G k' k A' B). lia.
Qed.

(** ** windows *)

Lemma in_window_meets iv t0 tend :
  (iv_t0 iv < iv_tend iv)%Q -> (t0 < tend)%Q ->
  (in_window iv t0 tend = true <-> meets (iv_t0 iv) (iv_tend iv) t0 tend).
Proof.
  intros H0 H1. unfold in_window, meets.
  rewrite !orb_true_iff, !andb_true_iff, !Qltb_spec, !Qle_bool_iff.
  set (a := iv_t0 iv) in *. set (b := iv_tend iv) in *. split.
  - intros [[[A B]|[A B]]|[A B]].
    + exists t0. lra.
    + destruct (Qlt_le_dec t0 a); [exists a|exists t0]; lra.
    + exists a. lra.
  - intros (t & A & B & C & D).
    destruct (Qlt_le_dec t0 a) as [X|X]; [|left; left; lra].
    destruct (Qlt_le_dec b tend) as [Y|Y]; [right; lra|left; right; lra].
Qed.

Lemma window_loop_ok ml T0 Tend t0 tend ps :
  Forall (fun p => address ml p) ps ->
  window_loop ml T0 Tend t0 tend ps =
  Ok (filter (fun p => match partial_time_interval ml T0 Tend (fst p) (snd p) with
                       | Ok iv => in_window iv t0 tend | Err _ => false end) ps).
Proof.
  induction ps as [|p ps IH]; intros H; auto.
  inversion H as [|x y [Hl Hk] H']; subst. simpl.
  destruct (interval_ok ml T0 Tend (fst p) (snd p) Hl Hk) as (iv & E & _).
  rewrite E. simpl. rewrite IH by assumption. reflexivity.
Qed.

Lemma interval_pos ml T0 Tend l k iv :
  (T0 < Tend)%Q -> partial_time_interval ml T0 Tend l k = Ok iv -> (iv_t0 iv < iv_tend iv)%Q.
Proof.
  intros HT E.
  assert (H : l <= ml /\ k < 2 ^ l).
  { unfold partial_time_interval in E.
    destruct (Nat.ltb_spec ml l); [discriminate|]. destruct (Nat.leb_spec (2 ^ l) k); [discriminate|]. lia. }
  destruct (interval_ok ml T0 Tend l k (proj1 H) (proj2 H)) as (j & F & D & F0 & F1).
  assert (j = iv) by congruence. subst j.
  pose proof (delta_pos T0 Tend l HT) as HD. rewrite F0, F1, qn_add, D. change (qn 1) with 1%Q.
  set (d := ((Tend - T0) / qn (2 ^ l))%Q) in *. nra.
Qed.

Lemma time_window_eq {A} (t : btree A) T0 Tend t0 tend :
  time_window_bins t T0 Tend t0 tend =
  Ok (filter (fun p => match partial_time_interval (bt_depth t) T0 Tend (fst p) (snd p) with
                       | Ok iv => in_window iv t0 tend | Err _ => false end) (bt_nodes t)).
Proof.
  unfold time_window_bins. rewrite window_loop_ok.
  - simpl. rewrite unique_sorted; auto. apply sorted_filter, nodes_sorted.
  - apply Forall_forall. intros p Hp. now apply nodes_address.
Qed.

Lemma time_window_spec {A} (t : btree A) T0 Tend t0 tend :
  (T0 < Tend)%Q -> (t0 < tend)%Q ->
  exists bins, time_window_bins t T0 Tend t0 tend = Ok bins /\
    sorted_pairs bins /\
    forall l k, In (l, k) bins <->
      exists iv, partial_time_interval (bt_depth t) T0 Tend l k = Ok iv /\
                 meets (iv_t0 iv) (iv_tend iv) t0 tend.
Proof.
  intros HT Ht. rewrite time_window_eq. eexists. split; [reflexivity|]. split.
  - apply sorted_filter, nodes_sorted.
  - intros l k. rewrite filter_In, nodes_address. cbn [fst snd]. split.
    + intros [_ H]. destruct (partial_time_interval (bt_depth t) T0 Tend l k) as [iv|] eqn:E; [|discriminate].
      exists iv. split; auto. apply in_window_meets; auto. exact (interval_pos _ _ _ _ _ _ HT E).
    + intros (iv & E & M). rewrite E. split.
      * unfold partial_time_interval in E. unfold address; simpl.
        destruct (Nat.ltb_spec (bt_depth t) l); [discriminate|].
        destruct (Nat.leb_spec (2 ^ l) k); [discriminate|]. lia.
      * apply in_window_meets; auto. exact (interval_pos _ _ _ _ _ _ HT E).
Qed.

Lemma map_nodes_ok {A B} (t : btree A) (f : A -> B) ps :
  wf_tree t -> Forall (address (bt_depth t)) ps ->
  (forall p, address (bt_depth t) p -> exists a, node_at t p = Ok a) ->
  exists l, map_nodes t f ps = Ok l /\
            map (fun p => let! a := node_at t p in Ok (f a)) ps = map Ok l.
Proof.
  intros Hw HF HN. induction ps as [|p ps IH]; simpl.
  - exists []; auto.
  - inversion HF as [|x y Hp HF']; subst. destruct (HN p Hp) as [a E].
    destruct (IH HF') as (l & El & Em). rewrite E, El. simpl. exists (f a :: l).
    simpl. now rewrite Em.
Qed.

Lemma map_nodes_inv {A B} (t : btree A) (f : A -> B) ps l :
  map_nodes t f ps = Ok l ->
  length l = length ps /\
  (forall i p, nth_error ps i = Some p -> exists a, node_at t p = Ok a /\ nth_error l i = Some (f a)).
Proof.
  revert l; induction ps as [|p ps IH]; intros l H; simpl in H.
  - inversion H; subst. split; auto. intros [|i] q; discriminate.
  - destruct (node_at t p) as [a|] eqn:E; [|discriminate]. simpl in H.
    destruct (map_nodes t f ps) as [r|] eqn:Er; [|discriminate]. simpl in H.
    inversion H; subst. destruct (IH r eq_refl) as [L G]. split; [simpl; congruence|].
    intros [|i] q Hq; simpl in *.
    + inversion Hq; subst. eauto.
    + auto.
Qed.

Lemma time_window_attr_spec {A B} (t : btree A) (f : A -> list B) T0 Tend t0 tend :
  wf_tree t -> (forall p, address (bt_depth t) p -> exists a, node_at t p = Ok a) ->
  exists bins, time_window_bins t T0 Tend t0 tend = Ok bins /\
    (bins = [] -> time_window_attr t f T0 Tend t0 tend = Err ValueError) /\
    (bins <> [] -> exists l, map (fun p => let! a := node_at t p in Ok (f a)) bins = map Ok l /\
       time_window_attr t f T0 Tend t0 tend = Ok (concat l)).
Proof.
  intros Hw HN. pose proof (time_window_eq t T0 Tend t0 tend) as E.
  eexists. split; [exact E|]. unfold time_window_attr. rewrite E. cbn [bind].
  set (bins := filter _ _) in *.
  destruct (map_nodes_ok t f bins Hw) as (l & El & Em); auto.
  { apply Forall_forall. intros p Hp. subst bins. apply filter_In in Hp. now apply nodes_address. }
  rewrite El. cbn [bind]. destruct (map_nodes_inv _ _ _ _ El) as [L _]. split.
  - intros Eb. rewrite Eb in L. destruct l; [reflexivity|discriminate].
  - intros N. exists l. split; auto. destruct l; [|reflexivity].
    destruct bins; [congruence|discriminate].
Qed.

(** ** alignment of blocks and intervals *)

Lemma block_time_aligned {V} (X : list V) ml l k j :
  l <= ml -> k < 2 ^ l -> Nat.divide (2 ^ l) (length X) ->
  exists iv, partial_time_interval ml 0 (qn (length X)) l k = Ok iv /\
    (in_block (array_split X (2 ^ l)) k j <-> in_interval iv (qn j)).
Proof.
  intros Hl Hk [q Hq]. pose proof (pow2_pos l).
  destruct (interval_ok ml 0 (qn (length X)) l k Hl Hk) as (iv & E & D & E0 & E1).
  exists iv. split; auto. unfold in_block, in_interval.
  rewrite !block_start_split by lia.
  assert (Hd : length X / 2 ^ l = q) by (rewrite Hq; apply Nat.div_mul; lia).
  assert (Hm : length X mod 2 ^ l = 0) by (rewrite Hq; apply Nat.mod_mul; lia).
  rewrite Hd, Hm, !Nat.min_0_r, !Nat.add_0_r.
  assert (Dq : (iv_delta iv == qn q)%Q).
  { rewrite D, Hq, qn_mul. pose proof (pow2_Q l). field. lra. }
  rewrite E0, E1, Dq, <- !qn_mul.
  rewrite Qplus_0_l, Qplus_0_l. rewrite qn_le, qn_lt. rewrite Nat.add_1_r. rewrite (Nat.mul_comm q k), (Nat.mul_comm q (S k)).
  reflexivity.
Qed.

(** in general the block never starts before its interval *)
Lemma block_time_late {V} (X : list V) ml l k :
  l <= ml -> k < 2 ^ l ->
  exists iv, partial_time_interval ml 0 (qn (length X)) l k = Ok iv /\
    (iv_t0 iv <= qn (block_start (array_split X (2 ^ l)) k) <= iv_t0 iv + qn (length X mod 2 ^ l))%Q.
Proof.
  intros Hl Hk. pose proof (pow2_pos l).
  destruct (interval_ok ml 0 (qn (length X)) l k Hl Hk) as (iv & E & D & E0 & E1).
  exists iv. split; auto. rewrite block_start_split by lia.
  set (n := 2 ^ l) in *. set (T := length X) in *.
  pose proof (Nat.mod_upper_bound T n ltac:(lia)) as Hr. pose proof (Nat.div_mod T n ltac:(lia)) as HT.
  set (q := T / n) in *. set (r := T mod n) in *.
  assert (Hn : (0 < qn n)%Q) by (change 0%Q with (qn 0); apply qn_lt; lia).
  assert (Ed : (iv_delta iv * qn n == qn T)%Q) by (rewrite D; field; lra).
  assert (Et : (iv_t0 iv * qn n == qn (T * k))%Q).
  { rewrite E0, qn_mul, <- Ed. ring. }
  split.
  - apply (Qmult_le_r _ _ (qn n) Hn). rewrite Et, <- qn_mul. apply qn_le.
    destruct (Nat.le_gt_cases k r); [rewrite Nat.min_l by lia|rewrite Nat.min_r by lia]; rewrite HT; nia.
  - apply (Qmult_le_r _ _ (qn n) Hn). rewrite Qmult_plus_distr_l, Et, <- !qn_mul, <- qn_add. apply qn_le.
    destruct (Nat.le_gt_cases k r); [rewrite Nat.min_l by lia|rewrite Nat.min_r by lia]; rewrite HT; nia.
Qed.

(** ** depth *)

Lemma lvl_threshold_ge4 T : 4 <= T -> lvl_threshold T = (1 + Z.of_nat (Nat.log2 (T / 4)))%Z.
Proof.
  intros H. unfold lvl_threshold, trunc_log2_quarter.
  destruct (Nat.leb_spec 4 T); [|lia]. lia.
Qed.

Lemma threshold_width T l : 4 <= T -> (Z.of_nat l <= lvl_threshold T)%Z -> 2 * 2 ^ l <= T.
Proof.
  intros H Hl. rewrite lvl_threshold_ge4 in Hl by assumption.
  assert (1 <= T / 4) by (apply (Nat.div_le_lower_bound T 4 1); lia).
  destruct (Nat.log2_spec (T / 4)) as [A _]; [lia|].
  assert (2 ^ l <= 2 ^ (1 + Nat.log2 (T / 4))) by (apply Nat.pow_le_mono_r; lia).
  rewrite Nat.pow_add_r in H1. change (2 ^ 1) with 2 in H1.
  pose proof (Nat.mul_div_le T 4). lia.
Qed.

Lemma leaf_width {V} (X : list V) l k :
  2 * 2 ^ l <= length X -> k < 2 ^ l ->
  exists b, nth_error (array_split X (2 ^ l)) k = Some b /\ 2 <= length b.
Proof.
  intros H Hk. pose proof (pow2_pos l). exists (block X (2 ^ l) k).
  split; [apply array_split_nth; lia|]. rewrite block_length by lia.
  assert (2 <= length X / 2 ^ l) by (apply Nat.div_le_lower_bound; lia).
  destruct (k <? length X mod 2 ^ l); lia.
Qed.
