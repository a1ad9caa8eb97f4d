(** * Facts about the binary tree and numpy.array_split *)
From Coq Require Import List ZArith Lia Bool Arith QArith.
From Verif Require Import Py Model_MrDMD Spec_MrDMD.
Import ListNotations.
Local Open Scope nat_scope.

Definition nslot (p : nat * nat) : nat := 2 ^ fst p + snd p - 1.

Definition wf_tree {A} (t : btree A) : Prop := length (bt_slots t) = bt_len (bt_depth t).

Lemma pow2_pos n : 1 <= 2 ^ n.
Proof. induction n; simpl; lia. Qed.

Lemma pow2_Z n : (2 ^ Z.of_nat n)%Z = Z.of_nat (2 ^ n).
Proof. rewrite Nat2Z.inj_pow. reflexivity. Qed.

Lemma bt_slot_nat p : bt_slot (Z.of_nat (fst p)) (Z.of_nat (snd p)) = Z.of_nat (nslot p).
Proof.
  unfold bt_slot, nslot. rewrite pow2_Z. pose proof (pow2_pos (fst p)). lia.
Qed.

Lemma nslot_lt d p : address d p -> nslot p < bt_len d.
Proof.
  intros [Hl Hb]. unfold nslot, bt_len. pose proof (pow2_pos (fst p)).
  assert (2 ^ (fst p + 1) <= 2 ^ (d + 1)) by (apply Nat.pow_le_mono_r; lia).
  rewrite Nat.add_1_r in H0 at 1. simpl in H0. lia.
Qed.

Lemma nslot_log p : snd p < 2 ^ fst p -> Nat.log2 (nslot p + 1) = fst p.
Proof.
  intros H. apply Nat.log2_unique; [lia|]. unfold nslot.
  pose proof (pow2_pos (fst p)). simpl. lia.
Qed.

Lemma nslot_inj p q : snd p < 2 ^ fst p -> snd q < 2 ^ fst q -> nslot p = nslot q -> p = q.
Proof.
  intros Hp Hq E. pose proof (nslot_log p Hp) as L1. pose proof (nslot_log q Hq) as L2.
  rewrite E in L1. destruct p as [l b], q as [l' b']; simpl in *.
  assert (l = l') by congruence. subst l'. f_equal.
  unfold nslot in E; simpl in E. pose proof (pow2_pos l). lia.
Qed.

Lemma nslot_surj d i : i < bt_len d -> exists p, address d p /\ nslot p = i.
Proof.
  intros H. unfold bt_len in H. pose proof (pow2_pos (d + 1)).
  destruct (Nat.log2_spec (i + 1)) as [H1 H2]; [lia|].
  exists (Nat.log2 (i + 1), i + 1 - 2 ^ Nat.log2 (i + 1)). split; [split|]; simpl fst; simpl snd.
  - assert (Nat.log2 (i + 1) < d + 1); [|lia]. apply Nat.log2_lt_pow2; lia.
  - simpl in H2. lia.
  - unfold nslot; simpl fst; simpl snd. lia.
Qed.

Lemma norm_index_nat n i : i < n -> norm_index n (Z.of_nat i) = Some i.
Proof. intros H. apply norm_index_spec. auto. Qed.

Lemma bt_get_valid {A} (t : btree A) p :
  wf_tree t -> address (bt_depth t) p ->
  exists o, nth_error (bt_slots t) (nslot p) = Some o /\ bt_get_nat t p = Ok o.
Proof.
  intros Hw Ha. pose proof (nslot_lt _ _ Ha) as Hs. destruct Ha as [Hl Hb].
  rewrite <- Hw in Hs.
  destruct (nth_error (bt_slots t) (nslot p)) as [o|] eqn:E.
  2:{ apply nth_error_None in E. lia. }
  exists o. split; [reflexivity|]. unfold bt_get_nat, bt_get.
  destruct (Z.ltb_spec (Z.of_nat (bt_depth t)) (Z.of_nat (fst p))); [lia|].
  destruct (Z.ltb_spec (Z.of_nat (fst p)) 0); [lia|].
  rewrite pow2_Z. destruct (Z.leb_spec (Z.of_nat (2 ^ fst p)) (Z.of_nat (snd p))); [lia|].
  rewrite bt_slot_nat, norm_index_nat by assumption. now rewrite E.
Qed.

Lemma bt_set_valid {A} (t : btree A) p a :
  wf_tree t -> address (bt_depth t) p ->
  bt_set_nat t p a = Ok (mkTree (bt_depth t) (upd (bt_slots t) (nslot p) (Some a))).
Proof.
  intros Hw Ha. pose proof (nslot_lt _ _ Ha) as Hs. rewrite <- Hw in Hs.
  unfold bt_set_nat, bt_set.
  destruct (Z.ltb_spec (Z.of_nat (fst p)) 0); [lia|].
  now rewrite bt_slot_nat, norm_index_nat.
Qed.

Lemma wf_upd {A} (t : btree A) i a :
  wf_tree t -> wf_tree (mkTree (bt_depth t) (upd (bt_slots t) i (Some a))).
Proof. unfold wf_tree; simpl. now rewrite length_upd. Qed.

Lemma wf_new {A} d : wf_tree (@bt_new A d).
Proof. unfold wf_tree, bt_new; simpl. now rewrite repeat_length. Qed.

Lemma bt_get_upd_same {A} (t : btree A) p a :
  wf_tree t -> address (bt_depth t) p ->
  bt_get_nat (mkTree (bt_depth t) (upd (bt_slots t) (nslot p) (Some a))) p = Ok (Some a).
Proof.
  intros Hw Ha.
  destruct (bt_get_valid (mkTree (bt_depth t) (upd (bt_slots t) (nslot p) (Some a))) p)
    as [o [E1 E2]]; auto using wf_upd. rewrite E2. simpl in E1.
  rewrite nth_error_upd_eq in E1; [congruence|]. rewrite Hw. now apply nslot_lt.
Qed.

Lemma bt_get_upd_other {A} (t : btree A) p q a :
  wf_tree t -> address (bt_depth t) p -> address (bt_depth t) q -> p <> q ->
  bt_get_nat (mkTree (bt_depth t) (upd (bt_slots t) (nslot p) (Some a))) q = bt_get_nat t q.
Proof.
  intros Hw Hp Hq N.
  destruct (bt_get_valid (mkTree (bt_depth t) (upd (bt_slots t) (nslot p) (Some a))) q)
    as [o [E1 E2]]; auto using wf_upd.
  destruct (bt_get_valid t q) as [o' [E1' E2']]; auto.
  rewrite E2, E2'. simpl in E1. rewrite nth_error_upd_neq in E1; [congruence|].
  intros E. apply N. apply nslot_inj; [apply Hp|apply Hq|assumption].
Qed.

Lemma pair_eqb_spec (q p : nat * nat) :
  ((fst q =? fst p) && (snd q =? snd p) = true) <-> q = p.
Proof.
  destruct q, p; simpl. rewrite andb_true_iff, !Nat.eqb_eq. split; [intros []|intros H; inversion H]; subst; auto.
Qed.

Lemma write_all_ok {A} (ws : list ((nat * nat) * A)) : forall t,
  wf_tree t -> Forall (fun w => address (bt_depth t) (fst w)) ws ->
  exists t', write_all t ws = Ok t' /\ wf_tree t' /\ bt_depth t' = bt_depth t /\
    forall p, address (bt_depth t) p ->
      bt_get_nat t' p = match last_write ws p with Some a => Ok (Some a) | None => bt_get_nat t p end.
Proof.
  induction ws as [|[q a] ws IH]; intros t Hw HF.
  - exists t; simpl; auto.
  - inversion HF as [|x y Hq HF' E]; subst. simpl in Hq.
    simpl. rewrite bt_set_valid by assumption. simpl.
    destruct (IH (mkTree (bt_depth t) (upd (bt_slots t) (nslot q) (Some a)))) as (t' & E & W' & D' & G).
    + now apply wf_upd.
    + exact HF'.
    + exists t'. rewrite E. repeat split; auto. intros p Hp. rewrite G by exact Hp.
      destruct (last_write ws p); [reflexivity|].
      destruct ((fst q =? fst p) && (snd q =? snd p)) eqn:Eb.
      * apply pair_eqb_spec in Eb. subst q. now apply bt_get_upd_same.
      * apply bt_get_upd_other; auto. intros X. apply pair_eqb_spec in X. congruence.
Qed.

(** reads: errors *)
Lemma bt_get_level {A} (t : btree A) l b :
  (Z.of_nat (bt_depth t) < l)%Z -> bt_get t l b = Err ValueError.
Proof. intros H. unfold bt_get. destruct (Z.ltb_spec (Z.of_nat (bt_depth t)) l); auto; lia. Qed.

Lemma bt_get_bin {A} (t : btree A) l b :
  (0 <= l)%Z -> (2 ^ l <= b)%Z -> bt_get t l b = Err ValueError.
Proof.
  intros H0 H. unfold bt_get.
  destruct (Z.ltb_spec (Z.of_nat (bt_depth t)) l); auto.
  destruct (Z.ltb_spec l 0); [lia|]. destruct (Z.leb_spec (2 ^ l) b); [auto|lia].
Qed.

(** iteration *)
Lemma nodes_slots_aux d : forall a,
  map nslot (flat_map (fun l => map (fun k => (l, k)) (bt_leaves l)) (seq a d)) =
  seq (2 ^ a - 1) (2 ^ (a + d) - 2 ^ a).
Proof.
  induction d as [|d IH]; intros a; simpl flat_map.
  - rewrite Nat.add_0_r, Nat.sub_diag. reflexivity.
  - cbn [seq flat_map]. rewrite map_app, IH, map_map.
    unfold bt_leaves.
    assert (E : map (fun k => nslot (a, k)) (seq 0 (2 ^ a)) = seq (2 ^ a - 1) (2 ^ a)).
    { assert (G : forall n s c, 1 <= c -> map (fun k => c + k - 1) (seq s n) = seq (c + s - 1) n).
      { induction n as [|n IHn]; intros s c Hc; simpl; auto. f_equal.
        rewrite IHn by assumption. f_equal. lia. }
      unfold nslot; simpl. rewrite G by apply pow2_pos. f_equal. lia. }
    rewrite E. pose proof (pow2_pos a).
    replace (2 ^ S a - 1) with (2 ^ a - 1 + 2 ^ a) by (simpl; lia).
    rewrite <- seq_app. f_equal.
    assert (2 ^ S a <= 2 ^ (S a + d)) by (apply Nat.pow_le_mono_r; lia).
    replace (a + S d) with (S a + d) by lia. simpl in *. lia.
Qed.

Lemma nodes_slots {A} (t : btree A) : map nslot (bt_nodes t) = seq 0 (bt_len (bt_depth t)).
Proof.
  unfold bt_nodes, bt_levels. rewrite nodes_slots_aux. simpl.
  unfold bt_len. f_equal.
Qed.

Lemma nodes_address {A} (t : btree A) p : In p (bt_nodes t) <-> address (bt_depth t) p.
Proof.
  unfold bt_nodes, bt_levels, address. rewrite in_flat_map. split.
  - intros (l & Hl & H). apply in_map_iff in H. destruct H as (k & <- & Hk).
    apply in_seq in Hl. unfold bt_leaves in Hk. apply in_seq in Hk. simpl. lia.
  - destruct p as [l k]; simpl. intros [Hl Hk]. exists l. split; [apply in_seq; lia|].
    apply in_map_iff. exists k. split; auto. unfold bt_leaves. apply in_seq. lia.
Qed.

Lemma nodes_nodup {A} (t : btree A) : NoDup (bt_nodes t).
Proof.
  apply (NoDup_map_inv nslot). rewrite nodes_slots. apply seq_NoDup.
Qed.

Lemma map_nth_error_seq {A} (l : list A) :
  map (fun i => nth_error l i) (seq 0 (length l)) = map Some l.
Proof.
  induction l as [|x l IH]; simpl; auto. f_equal. rewrite <- seq_shift, map_map. exact IH.
Qed.

Lemma iter_nodes {A} (t : btree A) :
  wf_tree t -> map (fun p => bt_get_nat t p) (bt_nodes t) = map Ok (bt_iter t).
Proof.
  intros Hw. unfold bt_iter.
  assert (E : map (fun p => nth_error (bt_slots t) (nslot p)) (bt_nodes t) = map Some (bt_slots t)).
  { rewrite <- (map_map nslot (fun i => nth_error (bt_slots t) i)), nodes_slots, <- Hw.
    apply map_nth_error_seq. }
  transitivity (map (fun o => match o with Some x => Ok x | None => Err IndexError end)
                    (map (@Some _) (bt_slots t))).
  - rewrite <- E, map_map. apply map_ext_in. intros p Hp. apply nodes_address in Hp.
    destruct (bt_get_valid t p Hw Hp) as (o & E1 & E2). now rewrite E1, E2.
  - rewrite map_map. reflexivity.
Qed.

(** the nested loops visit the nodes in lexicographic order *)
Definition sorted_pairs (l : list (nat * nat)) : Prop :=
  forall i j p q, i < j -> nth_error l i = Some p -> nth_error l j = Some q -> before p q.

Lemma sorted_cons p l :
  (forall q, In q l -> before p q) -> sorted_pairs l -> sorted_pairs (p :: l).
Proof.
  intros H S [|i] [|j] a b Hij Ha Hb; try lia.
  - simpl in Ha. inversion Ha; subst. apply H. simpl in Hb. eapply nth_error_In; eauto.
  - simpl in *. apply (S i j); auto. lia.
Qed.

Lemma sorted_inv p l : sorted_pairs (p :: l) -> (forall q, In q l -> before p q) /\ sorted_pairs l.
Proof.
  intros S. split.
  - intros q Hq. apply In_nth_error in Hq. destruct Hq as [j Hj].
    apply (S 0 (j + 1) p q); [lia|reflexivity|]. now rewrite Nat.add_1_r.
  - intros i j a b Hij Ha Hb. apply (S (i + 1) (j + 1) a b); [lia| |]; now rewrite Nat.add_1_r.
Qed.

Lemma sorted_app l1 l2 :
  sorted_pairs l1 -> sorted_pairs l2 -> (forall p q, In p l1 -> In q l2 -> before p q) ->
  sorted_pairs (l1 ++ l2).
Proof.
  induction l1 as [|p l1 IH]; intros S1 S2 H; simpl; auto.
  apply sorted_inv in S1. destruct S1 as [S1 S1'].
  apply sorted_cons.
  - intros q Hq. apply in_app_or in Hq. destruct Hq; [auto|apply H; simpl; auto].
  - apply IH; auto. intros; apply H; simpl; auto.
Qed.

Lemma sorted_filter f l : sorted_pairs l -> sorted_pairs (filter f l).
Proof.
  induction l as [|p l IH]; intros S; simpl; auto.
  apply sorted_inv in S. destruct S as [S S'].
  destruct (f p); auto. apply sorted_cons; auto.
  intros q Hq. apply filter_In in Hq. apply S. tauto.
Qed.

Lemma sorted_leaves l n : forall s, sorted_pairs (map (fun k => (l, k)) (seq s n)).
Proof.
  induction n as [|n IH]; intros s; simpl.
  - intros [|i] j p q _ H; discriminate.
  - apply sorted_cons; auto. intros q Hq. apply in_map_iff in Hq. destruct Hq as (k & <- & Hk).
    apply in_seq in Hk. right. simpl. lia.
Qed.

Lemma nodes_sorted {A} (t : btree A) : sorted_pairs (bt_nodes t).
Proof.
  unfold bt_nodes, bt_levels. generalize (bt_depth t + 1). intros n.
  generalize 0 at 1. revert n.
  assert (G : forall n a, sorted_pairs (flat_map (fun l => map (fun k => (l, k)) (bt_leaves l)) (seq a n))).
  { induction n as [|n IH]; intros a; simpl.
    - intros [|i] j p q _ H; discriminate.
    - apply sorted_app; auto.
      + apply sorted_leaves.
      + intros p q Hp Hq. apply in_map_iff in Hp. destruct Hp as (k & <- & _).
        apply in_flat_map in Hq. destruct Hq as (l' & Hl & Hq). apply in_map_iff in Hq.
        destruct Hq as (k' & <- & _). apply in_seq in Hl. left. simpl. lia. }
  intros; apply G.
Qed.

(** np.unique is the identity on a strictly sorted list *)
Lemma pair_ltb_spec p q : pair_ltb p q = true <-> before p q.
Proof.
  unfold pair_ltb, before. rewrite orb_true_iff, andb_true_iff, !Nat.ltb_lt, Nat.eqb_eq. tauto.
Qed.

Lemma unique_sorted l : sorted_pairs l -> unique_rows l = l.
Proof.
  induction l as [|p l IH]; intros S; auto.
  apply sorted_inv in S. destruct S as [S S']. simpl. rewrite IH by assumption.
  destruct l as [|q l]; auto. simpl.
  assert (B : before p q) by (apply S; simpl; auto).
  apply pair_ltb_spec in B. now rewrite B.
Qed.

(** ** array_split *)

Lemma nat_cumsum_nth l : forall a i, i <= length l ->
  nth i (nat_cumsum a l) 0 = a + fold_right Nat.add 0 (firstn i l).
Proof.
  induction l as [|x l IH]; intros a [|i] H; simpl in *; try lia.
  rewrite IH by lia. lia.
Qed.

Lemma firstn_add {V} (X : list V) : forall a c,
  firstn a X ++ firstn c (skipn a X) = firstn (a + c) X.
Proof.
  induction X as [|x X IH]; intros a c; [now rewrite !firstn_nil, skipn_nil, firstn_nil|].
  destruct a; simpl; auto. f_equal; auto.
Qed.

Lemma cut_concat {V} (X : list V) (sizes : list nat) : forall k,
  fold_right Nat.add 0 sizes = length X ->
  k <= length sizes ->
  concat (map (fun i => firstn (fold_right Nat.add 0 (firstn (i + 1) sizes) - fold_right Nat.add 0 (firstn i sizes))
                               (skipn (fold_right Nat.add 0 (firstn i sizes)) X)) (seq 0 k))
  = firstn (fold_right Nat.add 0 (firstn k sizes)) X.
Proof.
  intros k HX. induction k as [|k IH]; intros Hk; [reflexivity|].
  rewrite seq_S, map_app, concat_app, IH by lia. cbn [map concat].
  rewrite app_nil_r. replace (0 + k + 1) with (S k) by lia. rewrite Nat.add_0_l.
  set (a := fold_right Nat.add 0 (firstn k sizes)).
  set (b := fold_right Nat.add 0 (firstn (S k) sizes)).
  assert (H : a <= b).
  { subst a b. clear -Hk. revert sizes Hk. induction k as [|k IH]; intros [|s l] Hk; simpl in *; try lia.
    specialize (IH l). simpl in IH. lia. }
  rewrite firstn_add. f_equal. lia.
Qed.

Lemma sum_app l1 l2 : fold_right Nat.add 0 (l1 ++ l2) = fold_right Nat.add 0 l1 + fold_right Nat.add 0 l2.
Proof. induction l1; simpl; lia. Qed.

Lemma sum_repeat c n : fold_right Nat.add 0 (repeat c n) = n * c.
Proof. induction n; simpl; lia. Qed.

Lemma section_sizes_length N n : 1 <= n -> length (section_sizes N n) = n.
Proof.
  intros H. unfold section_sizes. rewrite app_length, !repeat_length.
  pose proof (Nat.mod_upper_bound N n). lia.
Qed.

Lemma section_sizes_sum N n : 1 <= n -> fold_right Nat.add 0 (section_sizes N n) = N.
Proof.
  intros H. unfold section_sizes. rewrite sum_app, !sum_repeat.
  pose proof (Nat.mod_upper_bound N n). pose proof (Nat.div_mod N n).
  assert (N mod n <= n) by lia. set (r := N mod n) in *. set (q := N / n) in *.
  assert (r * (q + 1) + (n - r) * q = n * q + r) by nia. lia.
Qed.

Lemma firstn_repeat {A} (a : A) n k : firstn k (repeat a n) = repeat a (Nat.min k n).
Proof. revert k; induction n; intros [|k]; simpl; f_equal; auto. Qed.

Lemma section_prefix N n k : k <= n -> 1 <= n ->
  fold_right Nat.add 0 (firstn k (section_sizes N n)) = k * (N / n) + Nat.min k (N mod n).
Proof.
  intros Hk H. unfold section_sizes. rewrite firstn_app, sum_app, !firstn_repeat, !sum_repeat, repeat_length.
  pose proof (Nat.mod_upper_bound N n). set (r := N mod n) in *. set (q := N / n) in *.
  destruct (Nat.le_gt_cases k r).
  - rewrite !Nat.min_l by lia. replace (k - r) with 0 by lia. simpl. nia.
  - rewrite !(Nat.min_r k) by lia. rewrite (Nat.min_l (k - r)) by lia. nia.
Qed.

Lemma div_point N n k : k <= n -> 1 <= n ->
  nth k (div_points N n) 0 = k * (N / n) + Nat.min k (N mod n).
Proof.
  intros Hk H. unfold div_points. rewrite nat_cumsum_nth by (rewrite section_sizes_length; lia).
  rewrite section_prefix by assumption. lia.
Qed.

Definition block {V} (X : list V) (n k : nat) : list V :=
  firstn ((S k) * (length X / n) + Nat.min (S k) (length X mod n)
          - (k * (length X / n) + Nat.min k (length X mod n)))
         (skipn (k * (length X / n) + Nat.min k (length X mod n)) X).

Lemma array_split_eq {V} (X : list V) n : 1 <= n ->
  array_split X n = map (block X n) (seq 0 n).
Proof.
  intros H. unfold array_split. apply map_ext_in. intros k Hk. apply in_seq in Hk.
  cbv zeta. rewrite !div_point by lia. rewrite Nat.add_1_r. reflexivity.
Qed.

Lemma array_split_length {V} (X : list V) n : length (array_split X n) = n.
Proof. unfold array_split. now rewrite map_length, seq_length. Qed.

Lemma array_split_concat {V} (X : list V) n : 1 <= n -> concat (array_split X n) = X.
Proof.
  intros H. unfold array_split.
  pose proof (section_sizes_length (length X) n H) as L.
  pose proof (cut_concat X (section_sizes (length X) n) n
                (section_sizes_sum (length X) n H)) as C.
  rewrite L in C. specialize (C (le_n n)).
  rewrite (firstn_all2 (n := n)) in C by lia. rewrite section_sizes_sum, firstn_all in C by assumption.
  etransitivity; [|exact C]. f_equal. apply map_ext_in. intros i Hi. apply in_seq in Hi.
  unfold div_points. rewrite !nat_cumsum_nth by lia. reflexivity.
Qed.

Lemma block_length {V} (X : list V) n k : 1 <= n -> k < n ->
  length (block X n k) = if k <? length X mod n then length X / n + 1 else length X / n.
Proof.
  intros H Hk. unfold block. rewrite firstn_length, skipn_length.
  set (N := length X). pose proof (Nat.mod_upper_bound N n). pose proof (Nat.div_mod N n).
  set (r := N mod n) in *. set (q := N / n) in *.
  destruct (Nat.ltb_spec k r).
  - rewrite (Nat.min_l (S k) r), (Nat.min_l k r) by lia.
    assert (S k * q <= n * q) by (apply Nat.mul_le_mono_r; lia). rewrite Nat.min_l; lia.
  - rewrite !(Nat.min_r _ r) by lia.
    assert (S k * q <= n * q) by (apply Nat.mul_le_mono_r; lia). rewrite Nat.min_l; lia.
Qed.

Lemma array_split_nth {V} (X : list V) n k : 1 <= n -> k < n ->
  nth_error (array_split X n) k = Some (block X n k).
Proof.
  intros H Hk. rewrite array_split_eq by assumption.
  rewrite nth_error_map.
  assert (nth_error (seq 0 n) k = Some k) as ->; [|reflexivity].
  { rewrite (nth_error_nth' _ 0) by (rewrite seq_length; lia). f_equal. now rewrite seq_nth. }
Qed.

Lemma array_split_cut {V} (X : list V) n : 1 <= n -> balanced_cut X n (array_split X n).
Proof.
  intros H. split; [apply array_split_length|]. split; [now apply array_split_concat|].
  intros i j b c Hij Hb Hc.
  assert (Hj : j < n).
  { rewrite <- (array_split_length X n). apply nth_error_Some. congruence. }
  rewrite array_split_nth in Hb, Hc by lia. inversion Hb; inversion Hc; subst.
  rewrite !block_length by lia.
  destruct (Nat.ltb_spec i (length X mod n)); destruct (Nat.ltb_spec j (length X mod n)); lia.
Qed.

Lemma block_start_split {V} (X : list V) n k : 1 <= n -> k <= n ->
  block_start (array_split X n) k = k * (length X / n) + Nat.min k (length X mod n).
Proof.
  intros H Hk. unfold block_start.
  induction k as [|k IH]; [simpl; lia|].
  assert (E : nth_error (array_split X n) k = Some (block X n k)) by (apply array_split_nth; lia).
  assert (F : firstn (S k) (array_split X n) = firstn k (array_split X n) ++ [block X n k]).
  { revert E. generalize (array_split X n) (block X n k). clear.
    intros l b. revert k. induction l as [|x l IH]; intros [|k] E; simpl in *; try discriminate.
    - congruence.
    - f_equal. auto. }
  rewrite F, fold_right_app. simpl fold_right.
  assert (G : forall (l : list (list V)) a, fold_right (fun b s => length b + s) a l
              = fold_right (fun b s => length b + s) 0 l + a).
  { induction l as [|x l IHl]; intros a; simpl; auto. rewrite IHl. lia. }
  rewrite G, IH, block_length by lia.
  destruct (Nat.ltb_spec k (length X mod n)).
  - rewrite !Nat.min_l by lia. lia.
  - rewrite !Nat.min_r by lia. lia.
Qed.

(** uniqueness of the balanced cut *)
Lemma concat_length {V} (B : list (list V)) :
  length (concat B) = fold_right Nat.add 0 (map (@length V) B).
Proof. induction B; simpl; auto. rewrite app_length. lia. Qed.

Lemma concat_inj {V} (B B' : list (list V)) :
  concat B = concat B' -> map (@length V) B = map (@length V) B' -> B = B'.
Proof.
  revert B'; induction B as [|b B IH]; intros [|b' B'] E L; simpl in *; try discriminate; auto.
  inversion L.
  assert (b = b' /\ concat B = concat B') as [-> ?].
  { revert E H0. clear. revert b'. induction b as [|x b IH]; intros [|x' b'] E H; simpl in *; try discriminate; auto.
    inversion E; subst. inversion H. destruct (IH b'); auto. subst. auto. }
  f_equal. auto.
Qed.

Lemma balanced_sizes l : forall N n,
  length l = n -> 1 <= n -> fold_right Nat.add 0 l = N ->
  (forall i j a b, i <= j -> nth_error l i = Some a -> nth_error l j = Some b -> b <= a <= b + 1) ->
  l = section_sizes N n.
Proof.
  intros N n Hl Hn HN HB.
  destruct (exists_last (l := l)) as (l' & q & El); [intros ->; simpl in *; lia|].
  assert (Hq : nth_error l (length l') = Some q).
  { rewrite El, nth_error_app2 by lia. now rewrite Nat.sub_diag. }
  assert (G : forall l m, (forall a, In a l -> q <= a <= q + 1) ->
              (forall i j a b, i <= j -> nth_error l i = Some a -> nth_error l j = Some b -> b <= a) ->
              length l = m ->
              exists r, r <= m /\ l = repeat (q + 1) r ++ repeat q (m - r)).
  { clear. induction l as [|a l IH]; intros m HA HS Hm; simpl in *.
    - exists 0. subst. split; auto.
    - destruct m as [|m]; [discriminate|]. inversion Hm as [Hm'].
      destruct (IH m) as (r & Hr & E); auto.
      { intros i j x y Hij Hx Hy. apply (HS (S i) (S j)); auto. lia. }
      subst m. destruct (HA a (or_introl eq_refl)) as [A1 A2].
      assert (Ha : a = q \/ a = q + 1) by lia. destruct Ha as [->| ->].
      + destruct r as [|r].
        * exists 0. split; [lia|]. simpl in E. rewrite Nat.sub_0_r in E. simpl. now f_equal.
        * exfalso. specialize (HS 0 1 q (q + 1)). rewrite E in HS. simpl in HS.
          specialize (HS ltac:(lia) eq_refl eq_refl). lia.
      + exists (S r). split; [lia|]. simpl. now f_equal. }
  destruct (G l n) as (r & Hr & E); auto.
  { intros a Ha. apply In_nth_error in Ha. destruct Ha as [i Hi].
    apply (HB i (length l')); auto.
    assert (i < length l) by (apply nth_error_Some; congruence).
    rewrite El, app_length in H. simpl in H. lia. }
  { intros i j a b Hij Ha Hb. apply (HB i j a b); auto. }
  assert (Hrn : r < n).
  { destruct (Nat.eq_dec r n) as [->|]; [|lia]. exfalso.
    rewrite Nat.sub_diag in E. simpl in E. rewrite app_nil_r in E.
    rewrite E in Hq. apply nth_error_In, repeat_spec in Hq. lia. }
  assert (HS : N = n * q + r).
  { rewrite <- HN, E, sum_app, !sum_repeat. nia. }
  assert (Hd : N / n = q) by (symmetry; apply (Nat.div_unique N n q r); auto).
  assert (Hm : N mod n = r) by (symmetry; apply (Nat.mod_unique N n q r); auto).
  unfold section_sizes. now rewrite Hd, Hm.
Qed.

Lemma balanced_unique {V} (X : list V) n B :
  1 <= n -> balanced_cut X n B -> B = array_split X n.
Proof.
  intros Hn. 
  assert (G : forall B, balanced_cut X n B -> map (@length V) B = section_sizes (length X) n).
  { clear B. intros B (L & C & S). apply balanced_sizes; auto.
    - now rewrite map_length.
    - now rewrite <- concat_length, C.
    - intros i j a b Hij Ha Hb. rewrite nth_error_map in Ha, Hb.
      destruct (nth_error B i) eqn:Ei; [|discriminate]. destruct (nth_error B j) eqn:Ej; [|discriminate].
      simpl in *. inversion Ha; inversion Hb; subst. eapply S; eauto. }
  intros HB. apply concat_inj.
  - destruct HB as (_ & C & _). now rewrite C, array_split_concat.
  - rewrite (G _ HB), (G _ (array_split_cut X n Hn)). reflexivity.
Qed.

Lemma in_block_unique {V} (X : list V) n j : 1 <= n -> j < length X ->
  exists k, k < n /\ in_block (array_split X n) k j.
Proof.
  intros Hn Hj. 
  assert (G : forall m, m <= n -> j < block_start (array_split X n) m ->
              exists k, k < m /\ in_block (array_split X n) k j).
  { induction m as [|m IH]; intros Hm H; [unfold block_start in H; simpl in H; lia|].
    destruct (Nat.lt_ge_cases j (block_start (array_split X n) m)) as [H'|H'].
    - destruct (IH ltac:(lia) H') as (k & Hk & B). exists k. split; [lia|auto].
    - exists m. split; [lia|split; auto]. }
  apply G; auto. rewrite block_start_split by lia.
  pose proof (Nat.mod_upper_bound (length X) n). pose proof (Nat.div_mod (length X) n).
  rewrite Nat.min_r by lia. lia.
Qed.
