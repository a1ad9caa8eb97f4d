(** * MrDMD: C19-C23 (and its part of C17) *)
From Coq Require Import List ZArith Lia Bool Arith QArith Reals.
From Verif Require Import Py Model_MrDMD Spec_MrDMD Proofs_MrDMD_Tree Proofs_MrDMD_Time
  Proofs_MrDMD_Log Proofs_MrDMD_Fit Proofs_MrDMD Proofs_MrDMD_Refit.
Import ListNotations.
Local Open Scope nat_scope.

(** ** C19: the tree *)

(** distinct pairs have distinct slots, and every slot has a pair *)
Theorem C19_slots_bijective (d : nat) :
  (forall p q, address d p -> address d q ->
     bt_slot (Z.of_nat (fst p)) (Z.of_nat (snd p)) = bt_slot (Z.of_nat (fst q)) (Z.of_nat (snd q)) -> p = q) /\
  (forall p, address d p ->
     (0 <= bt_slot (Z.of_nat (fst p)) (Z.of_nat (snd p)) < Z.of_nat (bt_len d))%Z) /\
  (forall i, i < bt_len d -> exists p, address d p /\
     bt_slot (Z.of_nat (fst p)) (Z.of_nat (snd p)) = Z.of_nat i).
Proof.
  repeat split.
  - intros p q [_ Hp] [_ Hq] H. rewrite !bt_slot_nat in H. apply nslot_inj; auto. lia.
  - rewrite bt_slot_nat. lia.
  - rewrite bt_slot_nat. apply nslot_lt in H. lia.
  - intros i Hi. destruct (nslot_surj d i Hi) as (p & Hp & E). exists p. split; auto.
    rewrite bt_slot_nat. lia.
Qed.
Print Assumptions C19_slots_bijective.

Example C19_address_ex : address 3 (2, 3) /\ bt_slot 2 3 = 6%Z /\ bt_len 3 = 15.
Proof. repeat split; vm_compute; lia. Qed.

(** after any writes to a new tree, a read returns the last value written *)
Theorem C19_last_write (A : Type) (d : nat) (ws : list ((nat * nat) * A)) :
  Forall (fun w => address d (fst w)) ws ->
  exists t, write_all (bt_new d) ws = Ok t /\
    forall l k, l <= d -> k < 2 ^ l -> bt_get t (Z.of_nat l) (Z.of_nat k) = Ok (last_write ws (l, k)).
Proof.
  intros H. destruct (write_all_ok ws (bt_new d) (wf_new d) H) as (t & E & _ & _ & G).
  exists t. split; auto. intros l k Hl Hk.
  assert (Ha : address d (l, k)) by (split; auto).
  change (bt_get t (Z.of_nat l) (Z.of_nat k)) with (bt_get_nat t (l, k)).
  rewrite (G (l, k) Ha). destruct (last_write ws (l, k)); auto.
  destruct (bt_get_valid (@bt_new A d) (l, k) (wf_new d) Ha) as (o & E1 & E2).
  simpl in E1. apply nth_error_In, repeat_spec in E1. now subst o.
Qed.
Print Assumptions C19_last_write.

Example C19_last_write_ex :
  let ws := [((0, 0), 1); ((1, 1), 2); ((2, 0), 3); ((1, 1), 4)] in
  Forall (fun w => address 2 (fst w)) ws /\ last_write ws (1, 1) = Some 4 /\
  exists t, write_all (bt_new 2) ws = Ok t /\ bt_get t 1 1 = Ok (Some 4) /\ bt_get t 2 1 = Ok None.
Proof.
  split; [repeat constructor; vm_compute; lia|]. split; [reflexivity|].
  eexists. repeat split; vm_compute; reflexivity.
Qed.

(** reads outside the tree *)
Theorem C19_read_errors (A : Type) (t : btree A) (l b : Z) :
  ((Z.of_nat (bt_depth t) < l)%Z -> bt_get t l b = Err ValueError) /\
  ((0 <= l)%Z -> (2 ^ l <= b)%Z -> bt_get t l b = Err ValueError).
Proof. split; [apply bt_get_level|apply bt_get_bin]. Qed.
Print Assumptions C19_read_errors.

Example C19_read_errors_ex :
  bt_get (@bt_new nat 2) 3 0 = Err ValueError /\ bt_get (@bt_new nat 2) 1 2 = Err ValueError.
Proof. split; reflexivity. Qed.

(** iteration visits every node once, level by level and left to right *)
Theorem C19_iteration (A : Type) (t : btree A) :
  length (bt_slots t) = bt_len (bt_depth t) ->
  map (fun p => bt_get t (Z.of_nat (fst p)) (Z.of_nat (snd p))) (bt_nodes t) = map Ok (bt_iter t) /\
  NoDup (bt_nodes t) /\ (forall p, In p (bt_nodes t) <-> address (bt_depth t) p) /\
  (forall i j p q, i < j -> nth_error (bt_nodes t) i = Some p -> nth_error (bt_nodes t) j = Some q ->
                   before p q).
Proof.
  intros H. split; [now apply iter_nodes|]. split; [apply nodes_nodup|].
  split; [apply nodes_address|]. apply nodes_sorted.
Qed.
Print Assumptions C19_iteration.

Example C19_iteration_ex :
  bt_nodes (@bt_new nat 2) = [(0,0);(1,0);(1,1);(2,0);(2,1);(2,2);(2,3)].
Proof. reflexivity. Qed.

(** the check is one sided: a negative leaf reads another node *)
Theorem C19_negative_leaf_refuted :
  exists (t : btree nat) l b, (0 <= l <= Z.of_nat (bt_depth t))%Z /\ (b < 0)%Z /\
    bt_get t l b = bt_get t 0 0 /\ is_ok (bt_get t l b) = true.
Proof. exists (bt_new 2), 1%Z, (-1)%Z. vm_compute. repeat split; congruence. Qed.
Print Assumptions C19_negative_leaf_refuted.

(** writes are not checked: an invalid pair overwrites a node of the next level *)
Theorem C19_unchecked_write_refuted :
  exists (t t' : btree nat) l b, (2 ^ l <= b)%Z /\ bt_set t l b 7 = Ok t' /\ bt_get t' (l + 1) 0 = Ok (Some 7).
Proof.
  exists (bt_new 2). eexists. exists 1%Z, 2%Z. split; [vm_compute; congruence|]. split; reflexivity.
Qed.
Print Assumptions C19_unchecked_write_refuted.

(** ** C20: the splitting *)

(** at every level the leaves get consecutive blocks covering the snapshots,
    sizes differing by at most one, larger first; and that cut is the only one *)
Theorem C20_split_exact (V : Type) (X : list V) (level : nat) :
  balanced_cut X (2 ^ level) (array_split X (2 ^ level)) /\
  forall B, balanced_cut X (2 ^ level) B -> B = array_split X (2 ^ level).
Proof.
  split; [apply array_split_cut, pow2_pos|]. intros B. apply balanced_unique, pow2_pos.
Qed.
Print Assumptions C20_split_exact.

Example C20_split_ex : array_split [0;1;2;3;4;5;6;7;8;9] 4 = [[0;1;2];[3;4;5];[6;7];[8;9]].
Proof. reflexivity. Qed.

(** every column is in exactly one block *)
Theorem C20_each_column_once (V : Type) (X : list V) (level j : nat) :
  j < length X ->
  exists k, k < 2 ^ level /\ in_block (array_split X (2 ^ level)) k j /\
    forall k', k' < 2 ^ level -> in_block (array_split X (2 ^ level)) k' j -> k' = k.
Proof.
  intros H. pose proof (pow2_pos level) as P.
  destruct (in_block_unique X (2 ^ level) j P H) as (k & Hk & B). exists k. split; [auto|]. split; [auto|].
  intros k' Hk' B'. unfold in_block in *. rewrite !block_start_split in B, B' by lia.
  destruct (Nat.lt_trichotomy k' k) as [L|[L|L]]; auto; exfalso.
  - assert (S k' * (length X / 2 ^ level) <= k * (length X / 2 ^ level)) by (apply Nat.mul_le_mono_r; lia). lia.
  - assert (S k * (length X / 2 ^ level) <= k' * (length X / 2 ^ level)) by (apply Nat.mul_le_mono_r; lia). lia.
Qed.
Print Assumptions C20_each_column_once.

(** when the leaves have equal sizes, the block of a leaf holds exactly the
    snapshots whose time is in the leaf's time interval *)
Theorem C20_time_aligned (V : Type) (X : list V) (max_level l k j : nat) :
  l <= max_level -> k < 2 ^ l -> Nat.divide (2 ^ l) (length X) ->
  exists iv,
    partial_time_interval max_level (fst (fst (mr_time (length X)))) (snd (fst (mr_time (length X)))) l k = Ok iv /\
    (in_block (array_split X (2 ^ l)) k j <-> in_interval iv (inject_Z (Z.of_nat j))).
Proof. exact (block_time_aligned X max_level l k j). Qed.
Print Assumptions C20_time_aligned.

Example C20_time_aligned_ex : Nat.divide (2 ^ 2) (length [1;2;3;4;5;6;7;8]) /\ 1 < 2 ^ 2 /\
  array_split [1;2;3;4;5;6;7;8] 4 = [[1;2];[3;4];[5;6];[7;8]].
Proof. split; [exists 2; reflexivity|]. split; [vm_compute; lia|reflexivity]. Qed.

(** otherwise a block starts no earlier than its interval, and late by at most
    the number of larger blocks *)
Theorem C20_time_offset (V : Type) (X : list V) (max_level l k : nat) :
  l <= max_level -> k < 2 ^ l ->
  exists iv,
    partial_time_interval max_level (fst (fst (mr_time (length X)))) (snd (fst (mr_time (length X)))) l k = Ok iv /\
    (iv_t0 iv <= inject_Z (Z.of_nat (block_start (array_split X (2 ^ l)) k))
       <= iv_t0 iv + inject_Z (Z.of_nat (length X mod 2 ^ l)))%Q.
Proof. exact (block_time_late X max_level l k). Qed.
Print Assumptions C20_time_offset.

(** ten snapshots: leaf (2, 1) was fitted on snapshots 3, 4, 5 but its time
    interval [2.5, 5) does not contain 5; and it straddles two blocks of level 1 *)
Theorem C20_time_refuted :
  exists (X : list nat) l k j iv, (Z.of_nat l <= lvl_threshold (length X))%Z /\ k < 2 ^ l /\
    partial_time_interval l (fst (fst (mr_time (length X)))) (snd (fst (mr_time (length X)))) l k = Ok iv /\
    in_block (array_split X (2 ^ l)) k j /\ ~ in_interval iv (inject_Z (Z.of_nat j)).
Proof.
  exists (seq 0 10), 2, 1, 5. eexists. split; [vm_compute; congruence|]. split; [simpl; lia|].
  split; [reflexivity|]. split; [vm_compute; lia|]. intros [_ H]. vm_compute in H. discriminate.
Qed.
Print Assumptions C20_time_refuted.

Theorem C20_nesting_refuted :
  exists (X : list nat) l k j j', (Z.of_nat (S l) <= lvl_threshold (length X))%Z /\
    in_block (array_split X (2 ^ S l)) k j /\ in_block (array_split X (2 ^ S l)) k j' /\
    in_block (array_split X (2 ^ l)) 0 j /\ in_block (array_split X (2 ^ l)) 1 j'.
Proof.
  exists (seq 0 10), 1, 1, 4, 5. split; [vm_compute; congruence|]. vm_compute. lia.
Qed.
Print Assumptions C20_nesting_refuted.

(** ** C21: the depth *)

(** the threshold of the model is the truncated logarithm of the code *)
Theorem C21_threshold_log (T : nat) : 1 <= T ->
  truncates (ln (INR T / 4) / ln 2)%R (lvl_threshold T - 1).
Proof. exact (lvl_threshold_real T). Qed.
Print Assumptions C21_threshold_log.

Example C21_threshold_ex : map lvl_threshold [1;2;3;4;7;8;16;31;32;100] = [-1;0;1;1;1;2;3;3;4;5]%Z.
Proof. reflexivity. Qed.

(** after a fit, successful or not, the depth is the smaller of the requested
    one and the threshold, which for T >= 4 is 1 + floor(log2(T/4)) *)
Theorem C21_effective_level W E cfg leaf_fit cycles (m : mrdmd W E cfg) X :
  reachable leaf_fit cycles m -> 4 <= length X ->
  mr_max_level W E cfg (fst (mr_fit W E cfg leaf_fit cycles m X)) =
  Nat.min (mr_max_level W E cfg m) (1 + Nat.log2 (length X / 4)) /\
  bt_depth (mr_tree W E cfg (fst (mr_fit W E cfg leaf_fit cycles m X))) =
  mr_max_level W E cfg (fst (mr_fit W E cfg leaf_fit cycles m X)).
Proof.
  intros H HX. apply reachable_inv in H. destruct (fit_inv W E cfg leaf_fit cycles m X H) as (I & _ & _ & ML).
  split; [|apply I]. rewrite ML. destruct (Nat.ltb_spec (length X) 2); [lia|].
  unfold effective_level. rewrite lvl_threshold_ge4 by assumption. lia.
Qed.
Print Assumptions C21_effective_level.

(** and then every leaf of every level gets at least two snapshots *)
Theorem C21_leaf_width W E cfg leaf_fit cycles (m : mrdmd W E cfg) X l k :
  reachable leaf_fit cycles m -> 4 <= length X ->
  l <= mr_max_level W E cfg (fst (mr_fit W E cfg leaf_fit cycles m X)) -> k < 2 ^ l ->
  exists b, nth_error (array_split X (2 ^ l)) k = Some b /\ 2 <= length b.
Proof. intros H. apply fit_width. now apply reachable_inv in H. Qed.
Print Assumptions C21_leaf_width.

(** so with one sub-DMD for all leaves, whose fit accepts any two or more
    columns, a first fit of T >= 4 snapshots never fails *)
Theorem C21_fit_total W E cfg leaf_fit cycles (HW : vspace_laws W) c max_level max_cycles m X :
  mr_init W E cfg (DInstance cfg c) max_level max_cycles = Ok m ->
  (forall c x, 2 <= length x -> exists ms, leaf_fit c x = Ok ms) -> 4 <= length X ->
  is_ok (snd (mr_fit W E cfg leaf_fit cycles m X)) = true.
Proof.
  intros H0 HT HX. pose proof (init_inv W E cfg _ _ _ _ H0) as (I0 & M0 & D0 & C0).
  apply (fit_total W E cfg leaf_fit cycles HW c); auto.
  unfold mr_init in H0.
  pose proof (build_full W E cfg c (mkMr W E cfg (DInstance cfg c) max_cycles max_level (bt_new max_level))) as B.
  destruct (build_tree _ _ _ _) as [mm [[]|e]]; [|discriminate]. inversion H0; subst mm.
  unfold full. rewrite M0. apply (B m); reflexivity.
Qed.
Print Assumptions C21_fit_total.

(** three snapshots: the truncation towards zero leaves two levels, and the
    second leaf of level 1 gets a single snapshot, so the fit always fails *)
Theorem C21_three_snapshots W E cfg leaf_fit cycles (m : mrdmd W E cfg) X :
  reachable leaf_fit cycles m -> length X = 3 -> 1 <= mr_max_level W E cfg m ->
  is_ok (snd (mr_fit W E cfg leaf_fit cycles m X)) = false.
Proof. intros H. apply fit_three. now apply reachable_inv in H. Qed.
Print Assumptions C21_three_snapshots.

(** a sequence of sub-DMDs, one per level, cannot be clamped: the fit raises
    ValueError and leaves an object with the reduced depth and empty nodes *)
Theorem C21_sequence_clamp_refuted W E cfg leaf_fit cycles (l : list cfg) max_level max_cycles m X :
  mr_init W E cfg (DSequence cfg l) max_level max_cycles = Ok m ->
  2 <= length X -> (lvl_threshold (length X) < Z.of_nat max_level)%Z ->
  let m' := fst (mr_fit W E cfg leaf_fit cycles m X) in
  snd (mr_fit W E cfg leaf_fit cycles m X) = Err ValueError /\
  mr_max_level W E cfg m' = Z.to_nat (lvl_threshold (length X)) /\
  Forall (fun o => o = None) (bt_iter (mr_tree W E cfg m')).
Proof.
  intros H0 HX HT. pose proof (init_inv W E cfg _ _ _ _ H0) as (I0 & M0 & D0 & C0).
  assert (HL : length l = max_level + 1).
  { unfold mr_init, build_tree in H0. simpl in H0.
    destruct (Nat.eqb_spec (length l) (max_level + 1)); [auto|discriminate]. }
  assert (EF : mr_fit W E cfg leaf_fit cycles m X =
    (mkMr W E cfg (DSequence cfg l) (mr_max_cycles W E cfg m) (Z.to_nat (lvl_threshold (length X)))
          (bt_new (Z.to_nat (lvl_threshold (length X)))), Err ValueError)).
  { unfold mr_fit. destruct (Nat.ltb_spec (length X) 2); [lia|].
    unfold clamp_level. rewrite M0.
    destruct (Z.ltb_spec (lvl_threshold (length X)) (Z.of_nat max_level)); [|lia].
    unfold build_tree. simpl. rewrite D0. simpl.
    destruct (Nat.eqb_spec (length l) (Z.to_nat (lvl_threshold (length X)) + 1)) as [X1|]; [|reflexivity].
    exfalso. assert (0 <= lvl_threshold (length X))%Z by (apply threshold_nonneg; auto). lia. }
  cbv zeta. rewrite EF. simpl. repeat split.
  apply Forall_forall. intros o Ho. unfold bt_iter in Ho. simpl in Ho. now apply repeat_spec in Ho.
Qed.
Print Assumptions C21_sequence_clamp_refuted.

(** ** C22: time windows *)

Theorem C22_window_bins (A : Type) (t : btree A) (T0 Tend t0 tend : Q) :
  (T0 < Tend)%Q -> (t0 < tend)%Q ->
  exists bins, time_window_bins t T0 Tend t0 tend = Ok bins /\
    (forall i j p q, i < j -> nth_error bins i = Some p -> nth_error bins j = Some q -> before p q) /\
    forall l k, In (l, k) bins <->
      exists iv, partial_time_interval (bt_depth t) T0 Tend l k = Ok iv /\
                 meets (iv_t0 iv) (iv_tend iv) t0 tend.
Proof. exact (time_window_spec t T0 Tend t0 tend). Qed.
Print Assumptions C22_window_bins.

Example C22_window_ex :
  time_window_bins (@bt_new nat 2) 0 16 (9 # 2) 8 = Ok [(0,0);(1,0);(2,1)].
Proof. reflexivity. Qed.

(** the intervals of a level tile the original window: contiguous from its
    start to its end, and each instant in exactly one of them *)
Theorem C22_tiling (max_level : nat) (T0 Tend : Q) (l : nat) :
  l <= max_level ->
  (exists iv, partial_time_interval max_level T0 Tend l 0 = Ok iv /\ (iv_t0 iv == T0)%Q) /\
  (exists iv, partial_time_interval max_level T0 Tend l (2 ^ l - 1) = Ok iv /\ (iv_tend iv == Tend)%Q) /\
  (forall k, k + 1 < 2 ^ l -> exists a b, partial_time_interval max_level T0 Tend l k = Ok a /\
     partial_time_interval max_level T0 Tend l (k + 1) = Ok b /\ (iv_tend a == iv_t0 b)%Q) /\
  (forall t, (T0 <= t)%Q -> (t < Tend)%Q -> exists k iv, k < 2 ^ l /\
     partial_time_interval max_level T0 Tend l k = Ok iv /\ in_interval iv t /\
     forall k' iv', partial_time_interval max_level T0 Tend l k' = Ok iv' -> in_interval iv' t -> k' = k).
Proof.
  intros H. split; [now apply tile_first|]. split; [now apply tile_last|].
  split; [intros k; now apply tile_next|]. intros t Ht0 Ht1.
  destruct (tile_cover max_level T0 Tend l t H Ht0 Ht1) as (k & iv & Hk & E & I).
  exists k, iv. repeat split; try apply I; auto. intros k' iv' E' I'.
  eapply (tile_disjoint max_level T0 Tend l k' k iv' iv t); eauto.
  exact (Qle_lt_trans _ _ _ Ht0 Ht1).
Qed.
Print Assumptions C22_tiling.

(** out of range levels and leaves *)
Theorem C22_interval_errors (max_level : nat) (T0 Tend : Q) (l k : nat) :
  max_level < l \/ 2 ^ l <= k <-> partial_time_interval max_level T0 Tend l k = Err ValueError.
Proof.
  split; [apply interval_err|]. unfold partial_time_interval.
  destruct (Nat.ltb_spec max_level l); auto. destruct (Nat.leb_spec (2 ^ l) k); auto. discriminate.
Qed.
Print Assumptions C22_interval_errors.

(** time_window_eigs, _frequency, _growth_rate and _amplitudes concatenate the
    attribute of exactly those bins, in that order; with no bin they raise *)
Theorem C22_window_attributes (A B : Type) (t : btree A) (f : A -> list B) (T0 Tend t0 tend : Q) :
  length (bt_slots t) = bt_len (bt_depth t) ->
  (forall p, address (bt_depth t) p -> exists a, node_at t p = Ok a) ->
  exists bins, time_window_bins t T0 Tend t0 tend = Ok bins /\
    (bins = [] -> time_window_attr t f T0 Tend t0 tend = Err ValueError) /\
    (bins <> [] -> exists l, map (fun p => let! a := node_at t p in Ok (f a)) bins = map Ok l /\
       time_window_attr t f T0 Tend t0 tend = Ok (concat l)).
Proof. exact (time_window_attr_spec t f T0 Tend t0 tend). Qed.
Print Assumptions C22_window_attributes.

Example C22_window_attributes_ex :
  let t := mkTree 2 (map Some [10;20;30;40;50;60;70]) in
  time_window_attr t (fun a => [a; a + 1]) 0 16 (9 # 2) 8 = Ok [10;11;20;21;50;51] /\
  time_window_attr t (fun a => [a; a + 1]) 0 16 20 30 = Err ValueError.
Proof. split; reflexivity. Qed.

(** an empty window (t0 = tend) at a boundary selects the bins on both sides *)
Theorem C22_empty_window_refuted :
  exists (t : btree nat) T0 Tend t0,
    ~ (exists a b, meets a b t0 t0) /\ time_window_bins t T0 Tend t0 t0 = Ok [(0,0);(1,0);(1,1)].
Proof.
  exists (bt_new 1), 0%Q, 16%Q, 8%Q. split; [|reflexivity].
  intros (a & b & t & _ & _ & H1 & H2). apply (Qlt_not_le _ _ H2 H1).
Qed.
Print Assumptions C22_empty_window_refuted.

(** ** C23: the decomposition *)

(** the chain of residuals: every leaf was fitted on its block of the residual
    of its level, keeps only the modes below max_cycles cycles over the block,
    and the residual decreases by the (cast) reconstruction of the level *)
Theorem C23_residual_chain W E cfg leaf_fit cycles (HW : vspace_laws W) (m m' : mrdmd W E cfg) X R :
  reachable leaf_fit cycles m -> mr_fit W E cfg leaf_fit cycles m X = (m', Ok R) ->
  exists Rs : nat -> list (vs_V W),
    Rs 0 = X /\ Rs (mr_max_level W E cfg m' + 1) = R /\
    forall l, l <= mr_max_level W E cfg m' ->
      (exists Y, level_recon W E cfg (mr_tree W E cfg m') l = Ok Y /\ length Y = length X /\
                 Rs l = add_cols W (Rs (S l)) (map (vs_cast W) Y)) /\
      (forall k, k < 2 ^ l -> exists c b ms a,
         designates (mr_dmd W E cfg m) l k c /\
         nth_error (array_split (Rs l) (2 ^ l)) k = Some b /\
         leaf_fit c b = Ok ms /\
         node_at (mr_tree W E cfg m') (l, k) = Ok a /\
         (forall e, In e (nd_modes W E cfg a) <->
            In e ms /\ (cycles (md_eig W E e) < mr_max_cycles W E cfg m / inject_Z (Z.of_nat (length b)))%Q)).
Proof.
  intros HI H. apply reachable_inv in HI.
  destruct (fit_chain W E cfg leaf_fit cycles HW m X m' R HI H) as (Rs & R0 & Rn & Lv).
  exists Rs. split; auto. split; auto. intros l Hl. destruct (Lv l Hl) as [(Y & Y1 & Y2 & _ & Y4) LB].
  split; [eauto|]. intros k Hk. destruct (LB k Hk) as (c & b & ms & B1 & B2 & _ & B4 & B5).
  exists c, b, ms. eexists. split; [exact B1|]. split; [exact B2|]. split; [exact B4|]. split; [exact B5|].
  intros e. simpl. rewrite filter_In. unfold slow. now rewrite Qltb_spec.
Qed.
Print Assumptions C23_residual_chain.

(** the snapshots are the final residual plus all the (cast) level
    reconstructions; reconstructed_data is their sum without the cast *)
Theorem C23_additive W E cfg leaf_fit cycles (HW : vspace_laws W) (m m' : mrdmd W E cfg) X R :
  reachable leaf_fit cycles m -> mr_fit W E cfg leaf_fit cycles m X = (m', Ok R) ->
  exists L, level_recons W E cfg (mr_tree W E cfg m') (seq 0 (mr_max_level W E cfg m' + 1)) = Ok L /\
    Forall (fun Y => length Y = length X) L /\ length R = length X /\
    X = sum_cols W R (map (map (vs_cast W)) L) /\
    mr_reconstructed W E cfg (mr_tree W E cfg m') = Ok (sum_levels W L (length X)) /\
    ((forall v, vs_cast W v = v) -> X = add_cols W (sum_levels W L (length X)) R).
Proof. intros HI H. apply reachable_inv in HI. exact (fit_sum W E cfg leaf_fit cycles HW m X m' R HI H). Qed.
Print Assumptions C23_additive.

(** partial_reconstructed_data (stacked modes times the block diagonal matrix
    of the dynamics) is the concatenation of the leaf reconstructions *)
Theorem C23_partial_reconstruction W E cfg leaf_fit cycles (HW : vspace_laws W) (m m' : mrdmd W E cfg) X R l :
  leaf_fit_ok leaf_fit -> reachable leaf_fit cycles m ->
  mr_fit W E cfg leaf_fit cycles m X = (m', Ok R) -> l <= mr_max_level W E cfg m' ->
  partial_reconstructed W E cfg (mr_tree W E cfg m') l None = level_recon W E cfg (mr_tree W E cfg m') l /\
  forall k, k < 2 ^ l -> exists a, node_at (mr_tree W E cfg m') (l, k) = Ok a /\
    partial_reconstructed W E cfg (mr_tree W E cfg m') l (Some k) = Ok (node_recon W E cfg a).
Proof.
  intros HO HI H Hl. apply reachable_inv in HI.
  exact (partial_level W E cfg leaf_fit cycles HW m X m' R l HO HI H Hl).
Qed.
Print Assumptions C23_partial_reconstruction.

(** a concrete run: snapshots are integers, every leaf fit finds a slow mode
    (the first column, constant in time) and a fast one *)
Definition exW : vspace := mkVS Z Z Z.add Z.sub 0%Z 0%Z Z.mul (fun v => v).
Definition ex_leaf (c : Z) (x : list (vs_V exW)) : result (list (mode exW Q)) :=
  Ok [mkMode exW Q (hd 0%Z x) (1 # 100) c (repeat 1%Z (length x));
      mkMode exW Q 5%Z 3%Q c (repeat 2%Z (length x))].

Lemma exW_laws : vspace_laws exW.
Proof. constructor; simpl; intros; lia. Qed.
Lemma ex_leaf_ok : leaf_fit_ok ex_leaf.
Proof. intros c x ms H. inversion H; subst. repeat constructor; simpl; now rewrite repeat_length. Qed.

Definition ex_m0 : mrdmd exW Q Z :=
  match mr_init exW Q Z (DInstance Z 9%Z) 5 1 with Ok m => m | Err _ => mkMr _ _ _ (DOther Z) 0 0 (bt_new 0) end.
Definition ex_X : list Z := [1;2;4;8;16;32;64;100;3]%Z.
Definition ex_m1 := fst (mr_fit exW Q Z ex_leaf (fun q => q) ex_m0 ex_X).

Example C23_run_ex :
  reachable ex_leaf (fun q => q) ex_m0 /\
  mr_fit exW Q Z ex_leaf (fun q => q) ex_m0 ex_X = (ex_m1, Ok [0;1;3;0;8;0;32;0;-97]%Z) /\
  mr_max_level exW Q Z ex_m1 = 2 /\
  mr_reconstructed exW Q Z (mr_tree exW Q Z ex_m1) = Ok [1;1;1;8;8;32;32;100;100]%Z /\
  partial_reconstructed exW Q Z (mr_tree exW Q Z ex_m1) 1 None = Ok [0;0;0;0;0;31;31;31;31]%Z.
Proof.
  split; [apply (reach_init _ _ (DInstance Z 9%Z) 5 1); reflexivity|].
  repeat split; vm_compute; reflexivity.
Qed.

(** the hypotheses of C21 on the same object *)
Example C21_ex :
  reachable ex_leaf (fun q => q) ex_m0 /\ 4 <= length ex_X /\
  (forall c x, 2 <= length x -> exists ms, ex_leaf c x = Ok ms) /\
  snd (mr_fit exW Q Z ex_leaf (fun q => q) ex_m0 [1;2;3]%Z) = Err ValueError /\
  snd (mr_fit exW Q Z ex_leaf (fun q => q)
         (match mr_init exW Q Z (DSequence Z [1;2;3;4]%Z) 3 1 with Ok m => m | Err _ => ex_m0 end)
         [1;2;3;4]%Z) = Err ValueError.
Proof.
  split; [apply (reach_init _ _ (DInstance Z 9%Z) 5 1); reflexivity|].
  split; [simpl; lia|]. split; [unfold ex_leaf; eauto|]. split; vm_compute; reflexivity.
Qed.

(** with real data the imaginary part of the reconstructions is dropped from
    what is subtracted but not from reconstructed_data, so the two differ *)
Definition castW : vspace :=
  mkVS (Z * Z) Z (fun a b => (fst a + fst b, snd a + snd b)%Z) (fun a b => (fst a - fst b, snd a - snd b)%Z)
       (0, 0)%Z 0%Z (fun k v => (k * fst v, k * snd v)%Z) (fun v => (fst v, 0%Z)).
Theorem C23_cast_refuted :
  exists leaf_fit cycles (m m' : mrdmd castW Q Z) X R S, vspace_laws castW /\
    reachable leaf_fit cycles m /\ mr_fit castW Q Z leaf_fit cycles m X = (m', Ok R) /\
    mr_reconstructed castW Q Z (mr_tree castW Q Z m') = Ok S /\ X <> add_cols castW S R.
Proof.
  exists (fun _ (x : list (vs_V castW)) => Ok [mkMode castW Q (3, 7)%Z 0%Q 0%Z (repeat 1%Z (length x))]), (fun q => q).
  exists (match mr_init castW Q Z (DInstance Z 0%Z) 0 1 with Ok m => m | Err _ => mkMr _ _ _ (DOther Z) 0 0 (bt_new 0) end).
  eexists. exists [(1, 0); (2, 0)]%Z. eexists. eexists. split.
  { constructor; simpl; intros; repeat match goal with x : (Z * Z)%type |- _ => destruct x end;
      simpl; f_equal; lia. }
  split; [apply (reach_init _ _ (DInstance Z 0%Z) 0 1); reflexivity|].
  split; [vm_compute; reflexivity|]. split; [vm_compute; reflexivity|]. vm_compute. congruence.
Qed.
Print Assumptions C23_cast_refuted.

(** ** C17 for MrDMD: refitting *)

(** a successful refit yields exactly the object a fresh one would become, if
    the fresh one is created with the depth the old object has at that time *)
Theorem C17_mrdmd_refit W E cfg leaf_fit cycles c (m m' m0 : mrdmd W E cfg) X R :
  reachable leaf_fit cycles m -> mr_dmd W E cfg m = DInstance cfg c ->
  mr_init W E cfg (DInstance cfg c) (mr_max_level W E cfg m) (mr_max_cycles W E cfg m) = Ok m0 ->
  mr_fit W E cfg leaf_fit cycles m X = (m', Ok R) -> mr_fit W E cfg leaf_fit cycles m0 X = (m', Ok R).
Proof. intros H. apply refit_fresh. now apply reachable_inv in H. Qed.
Print Assumptions C17_mrdmd_refit.

(** but that depth only ever shrinks: short data leave it reduced for good *)
Theorem C17_mrdmd_sticky_level_refuted :
  exists W E cfg leaf_fit cycles (m : mrdmd W E cfg) X1 X2 m1 m2 R1 R2, reachable leaf_fit cycles m /\
    mr_fit W E cfg leaf_fit cycles (fst (mr_fit W E cfg leaf_fit cycles m X1)) X2 = (m1, Ok R1) /\
    mr_fit W E cfg leaf_fit cycles m X2 = (m2, Ok R2) /\
    mr_max_level W E cfg m1 < mr_max_level W E cfg m2 /\ R1 <> R2.
Proof.
  exists exW, Q, Z, ex_leaf, (fun q => q), ex_m0, [1;2;4;8]%Z, ex_X.
  do 4 eexists. split; [apply (reach_init _ _ (DInstance Z 9%Z) 5 1); reflexivity|].
  split; [vm_compute; reflexivity|]. split; [vm_compute; reflexivity|]. split; [vm_compute; lia|congruence].
Qed.
Print Assumptions C17_mrdmd_sticky_level_refuted.

Theorem C17_mrdmd_level_history W E cfg leaf_fit cycles Xs (m : mrdmd W E cfg) :
  reachable leaf_fit cycles m ->
  mr_max_level W E cfg (fits W E cfg leaf_fit cycles m Xs) =
  fold_left (fun l X => if length X <? 2 then l else effective_level l (length X)) Xs (mr_max_level W E cfg m).
Proof. intros H. apply level_history. now apply reachable_inv in H. Qed.
Print Assumptions C17_mrdmd_level_history.
