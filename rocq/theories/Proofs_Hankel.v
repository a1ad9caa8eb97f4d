(** * Proofs about the Hankel pre/post-processing and HankelDMD's time windows *)
From Coq Require Import List ZArith Lia Bool Arith QArith Qround Qcanon String.
From Verif Require Import Py NdArray Model_Utils Model_Hankel Spec_Hankel Proofs_Utils.
Import ListNotations.
Local Open Scope nat_scope.
Local Notation length := List.length.

(** ** the table of delay blocks *)
Lemma assign_miss {A} (ws : list (nat * nat * (nat -> A))) a t i s :
  (forall w, In w ws -> fst w <> (t, i)) -> fancy_assign a ws t i s = a t i s.
Proof.
  unfold fancy_assign. revert a. induction ws as [|[[t' i'] b] ws IH]; intros a H; auto. simpl.
  rewrite IH by (intros w Hw; apply H; now right). simpl.
  specialize (H (t', i', b) (or_introl eq_refl)). simpl in H.
  destruct (Nat.eqb_spec t t'); destruct (Nat.eqb_spec i i'); subst; simpl; auto. congruence.
Qed.
Lemma assign_hit {A} (ws : list (nat * nat * (nat -> A))) a t i s v :
  (exists w, In w ws /\ fst w = (t, i)) ->
  (forall w, In w ws -> fst w = (t, i) -> snd w s = v) -> fancy_assign a ws t i s = v.
Proof.
  unfold fancy_assign. revert a. induction ws as [|w ws IH]; intros a [w0 [I E]] H; [destruct I|].
  cbn [fold_left].
  destruct (in_dec (fun p q : nat * nat => ltac:(decide equality; apply Nat.eq_dec)) (t, i) (map fst ws)) as [Y|N].
  - apply IH; [|intros; apply H; auto; now right].
    apply in_map_iff in Y as (w1 & E1 & I1). eauto.
  - assert (w0 = w). { destruct I; auto. exfalso. apply N. apply in_map_iff. eauto. } subst w0.
    etransitivity. { apply (assign_miss ws). intros w1 I1 E1. apply N. apply in_map_iff. eauto. }
    destruct w as [[t' i'] b]. simpl in E. injection E as -> ->. simpl. rewrite !Nat.eqb_refl. simpl.
    apply (H (t, i, b)); auto.
Qed.

Section Mod.
Context (M : qmod).
Notation V := (qm_V M).

Lemma table_ok (rec : nd (option V)) n C d : shape rec = [d * n; C] -> 1 <= d ->
  exists tab, delay_table rec d = Ok tab /\ shape tab = [C + d - 1; d; n] /\
    forall t i s, i < d ->
      at_ tab [t; i; s] = if (i <=? t) && (t <? C + i) then at_ rec [i * n + s; t - i] else None.
Proof.
  intros S Hd. unfold delay_table. rewrite S. destruct (Nat.eqb_spec d 0); [lia|].
  rewrite Nat.mul_comm, Nat.mod_mul, Nat.eqb_refl by lia. cbn [negb]. rewrite Nat.div_mul by lia.
  eexists. split; [reflexivity|]. split; [reflexivity|]. intros t i s Hi. cbn [at_].
  destruct ((i <=? t) && (t <? C + i)) eqn:B.
  - apply andb_prop in B as [B1 B2]. apply Nat.leb_le in B1. apply Nat.ltb_lt in B2.
    apply assign_hit.
    + exists (t - i + i, i, fun s => at_ rec [i * n + s; t - i]). split; [|f_equal; simpl; f_equal; lia].
      apply in_flat_map. exists (t - i). split; [apply in_seq; lia|].
      apply in_map_iff. exists i. split; auto. apply in_seq. lia.
    + intros w I E. apply in_flat_map in I as (c & Ic & I). apply in_map_iff in I as (i' & <- & Ii).
      simpl in E. injection E as E1 E2. subst i'. simpl. repeat f_equal. lia.
  - rewrite assign_miss; auto. intros w I E. apply in_flat_map in I as (c & Ic & I).
    apply in_map_iff in I as (i' & <- & Ii). simpl in E. injection E as E1 E2. subst i' t.
    apply in_seq in Ic. destruct (Nat.leb_spec i (c + i)); [|lia]. destruct (Nat.ltb_spec (c + i) (C + i)); [|lia].
    discriminate.
Qed.

(** ** averages *)
Lemma num_cells ws k0 k1 d t (f : nat -> V) :
  avg_num ws (map (fun i => if has_block k0 k1 d t i then Some (f i) else None) (seq 0 d))
  = block_sum M ws k0 k1 d t f.
Proof.
  unfold avg_num, block_sum. generalize (seq 0 d) as l. revert ws.
  induction ws as [|w ws IH]; intros l; destruct l as [|x l]; auto.
  cbn [map combine fold_right fst snd]. destruct (has_block k0 k1 d t x); rewrite IH; auto.
Qed.
Lemma den_cells ws k0 k1 d t (f : nat -> V) :
  avg_den (M:=M) ws (map (fun i => if has_block k0 k1 d t i then Some (f i) else None) (seq 0 d))
  = block_weight ws k0 k1 d t.
Proof.
  unfold avg_den, block_weight. generalize (seq 0 d) as l. revert ws.
  induction ws as [|w ws IH]; intros l; destruct l as [|x l]; auto.
  cbn [map combine fold_right fst snd]. destruct (has_block k0 k1 d t x); rewrite IH; auto.
Qed.
Lemma sum_const (L : qmod_laws M) ws k0 k1 d t (f : nat -> V) v :
  (forall i, has_block k0 k1 d t i = true -> f i = v) ->
  block_sum M ws k0 k1 d t f = qm_scale M (block_weight ws k0 k1 d t) v.
Proof.
  intros H. unfold block_sum, block_weight. induction (combine (seq 0 d) ws) as [|[i w] l IH].
  - simpl. symmetry. apply L.
  - cbn [fold_right fst snd]. destruct (has_block k0 k1 d t i) eqn:E; auto.
    rewrite IH, (H i E). symmetry. apply L.
Qed.
Lemma average_cells ws k0 k1 d t (f : nat -> V) :
  ma_average ws (map (fun i => if has_block k0 k1 d t i then Some (f i) else None) (seq 0 d))
  = if Qc_eq_dec (block_weight ws k0 k1 d t) (Q2Qc 0) then None
    else Some (qm_scale M (/ block_weight ws k0 k1 d t)%Qc (block_sum M ws k0 k1 d t f)).
Proof. unfold ma_average. rewrite den_cells, num_cells. reflexivity. Qed.

Lemma weight_repeat k0 k1 d t : block_weight (repeat (Q2Qc 1) d) k0 k1 d t = Qcn (block_count k0 k1 d t).
Proof.
  unfold block_weight, block_count.
  assert (G : forall l, fold_right (fun (p : nat * Qc) acc => if has_block k0 k1 d t (fst p) then (snd p + acc)%Qc else acc)
     (Q2Qc 0) (combine l (repeat (Q2Qc 1) (length l))) = Qcn (length (filter (has_block k0 k1 d t) l))).
  { induction l as [|x l IH]; auto. cbn [repeat length combine fold_right fst snd filter].
    destruct (has_block k0 k1 d t x); rewrite IH; auto. cbn [length]. unfold Qcn. apply Qc_is_canon.
    unfold Qcplus, Q2Qc, this. rewrite !Qred_correct. rewrite Nat2Z.inj_succ. unfold Z.succ. rewrite inject_Z_plus.
    change (inject_Z 1) with 1%Q. apply Qplus_comm. }
  rewrite <- (seq_length d 0) at 2. apply G.
Qed.
Lemma count_pos k0 k1 d t : k0 <= k1 -> k0 <= t -> t <= k1 + d - 1 -> 1 <= d ->
  1 <= block_count k0 k1 d t <= d.
Proof.
  intros Hk H1 H2 Hd. unfold block_count. split.
  - assert (I : In (Nat.min (t - k0) (d - 1)) (filter (has_block k0 k1 d t) (seq 0 d))).
    { apply filter_In. split; [apply in_seq; lia|]. unfold has_block.
      rewrite !andb_true_iff, Nat.ltb_lt, !Nat.leb_le. lia. }
    destruct (filter _ _); [destruct I|simpl; lia].
  - assert (G : forall l : list nat, length (filter (has_block k0 k1 d t) l) <= length l).
    { induction l as [|x l IH]; simpl; auto. destruct (has_block k0 k1 d t x); simpl; lia. }
    specialize (G (seq 0 d)). rewrite seq_length in G. exact G.
Qed.
Lemma Qcn_nz n : 1 <= n -> Qcn n <> Q2Qc 0.
Proof.
  intros H E. unfold Qcn in E. apply Q2Qc_eq_iff in E. unfold Qeq in E. simpl in E. lia.
Qed.

(** ** hankel_post on a full matrix *)

Lemma post_first (Y : nd (option V)) n C d : shape Y = [d * n; C] -> 1 <= d -> 1 <= C ->
  exists R, hankel_post (MStr "first") d Y = Ok R /\ shape R = [n; C + d - 1] /\
    forall s t, t < C + d - 1 ->
      at_ R [s; t] = fill M (at_ Y [Nat.min t (d - 1) * n + s; t - Nat.min t (d - 1)]).
Proof.
  intros S Hd HC. destruct (table_ok Y n C d S Hd) as (tab & E & St & At).
  unfold hankel_post. rewrite E. cbn [bind String.eqb Ascii.eqb Bool.eqb].
  eexists. split; [reflexivity|]. unfold first_rec. rewrite St. split; [reflexivity|].
  intros s t Ht. cbn [filled at_]. unfold first_delay.
  replace (if d - 1 <=? t then d - 1 else t) with (Nat.min t (d - 1)) by (destruct (Nat.leb_spec (d - 1) t); lia).
  rewrite At by lia. destruct (Nat.leb_spec (Nat.min t (d - 1)) t); [|lia].
  destruct (Nat.ltb_spec t (C + Nat.min t (d - 1))); [|lia]. reflexivity.
Qed.

Lemma post_avg (Y : nd (option V)) n C d meth ws :
  shape Y = [d * n; C] -> 1 <= d -> 1 <= C ->
  meth = MWeights ws /\ length ws = d \/ meth = MStr "mean" /\ ws = repeat (Q2Qc 1) d ->
  exists R, hankel_post meth d Y = Ok R /\ shape R = [n; C + d - 1] /\
    forall s t, at_ R [s; t] =
      fill M (ma_average ws (map (fun i => if has_block 0 (C - 1) d t i
                                         then at_ Y [i * n + s; t - i] else None) (seq 0 d))).
Proof.
  intros S Hd HC HM. destruct (table_ok Y n C d S Hd) as (tab & E & St & At).
  assert (G : forall s t, delays tab d t s =
     map (fun i => if has_block 0 (C - 1) d t i then at_ Y [i * n + s; t - i] else None) (seq 0 d)).
  { intros s t. unfold delays. apply map_ext_in. intros i Hi. apply in_seq in Hi. rewrite At by lia.
    unfold has_block. replace (i <? d) with true by (symmetry; apply Nat.ltb_lt; lia). cbn [andb Nat.add].
    replace (t <? C + i) with (t <=? C - 1 + i); auto.
    destruct (Nat.leb_spec t (C - 1 + i)), (Nat.ltb_spec t (C + i)); auto; lia. }
  unfold hankel_post. rewrite E. cbn [bind].
  assert (K : exists R, (Ok (filled (avg_rec tab d ws)) : result (nd V)) = Ok R /\ shape R = [n; C + d - 1] /\
    forall s t, at_ R [s; t] = fill M (ma_average ws (map (fun i => if has_block 0 (C - 1) d t i
                                         then at_ Y [i * n + s; t - i] else None) (seq 0 d)))).
  { eexists. split; [reflexivity|]. unfold avg_rec. rewrite St. split; [reflexivity|].
    intros s t. cbn [filled at_]. rewrite G. reflexivity. }
  destruct HM as [[-> Hl]|[-> ->]].
  - rewrite Hl, Nat.eqb_refl. exact K.
  - exact K.
Qed.

(** all entries present *)
Lemma average_full ws k0 k1 d t (f : nat -> option V) (g : nat -> V) :
  (forall i, has_block k0 k1 d t i = true -> f i = Some (g i)) ->
  ma_average ws (map (fun i => if has_block k0 k1 d t i then f i else None) (seq 0 d))
  = if Qc_eq_dec (block_weight ws k0 k1 d t) (Q2Qc 0) then None
    else Some (qm_scale M (/ block_weight ws k0 k1 d t)%Qc (block_sum M ws k0 k1 d t g)).
Proof.
  intros H. rewrite <- average_cells. f_equal. apply map_ext. intros i.
  destruct (has_block k0 k1 d t i) eqn:E; auto.
Qed.
Lemma average_const (L : qmod_laws M) ws k0 k1 d t (f : nat -> option V) v :
  (forall i, has_block k0 k1 d t i = true -> f i = Some v) ->
  block_weight ws k0 k1 d t <> Q2Qc 0 ->
  ma_average ws (map (fun i => if has_block k0 k1 d t i then f i else None) (seq 0 d)) = Some v.
Proof.
  intros H W. rewrite (average_full ws k0 k1 d t f (fun _ => v)) by auto.
  destruct (Qc_eq_dec _ _); [contradiction|]. f_equal.
  rewrite (sum_const L ws k0 k1 d t (fun _ => v) v) by auto.
  rewrite (ql_scaleA M L), (Qcmult_comm (/ _)), Qcmult_inv_r by auto. apply L.
Qed.

(** ** C25 *)

Lemma roundtrip_first (X : nd V) n m d : shape X = [n; m] -> 1 <= d <= m ->
  exists H R, hankel_pre d (numbers X) = Ok H /\ hankel_post (MStr "first") d H = Ok R /\ nd_eq R X.
Proof.
  intros S Hd. destruct (pseudo_hankel_ok (numbers X) n m d S Hd) as (H & E & SH & At).
  rewrite Nat.mul_comm in SH.
  destruct (post_first H n (m - d + 1) d SH ltac:(lia) ltac:(lia)) as (R & ER & SR & AR).
  exists H, R. split; auto. split; auto. split.
  { rewrite SR, S. f_equal. f_equal. lia. }
  intros idx I. rewrite SR in I. destruct idx as [|s [|t [|]]]; simpl in I; try tauto.
  rewrite AR by lia. rewrite At by lia. simpl. f_equal. f_equal. f_equal. lia.
Qed.

Lemma roundtrip_avg (L : qmod_laws M) (X : nd V) n m d meth ws : shape X = [n; m] -> 1 <= d <= m ->
  known_method meth d ws ->
  (forall t, t < m -> block_weight ws 0 (m - d) d t <> Q2Qc 0) ->
  exists H R, hankel_pre d (numbers X) = Ok H /\ hankel_post meth d H = Ok R /\ nd_eq R X.
Proof.
  intros S Hd HM HW. destruct (pseudo_hankel_ok (numbers X) n m d S Hd) as (H & E & SH & At).
  rewrite Nat.mul_comm in SH.
  destruct (post_avg H n (m - d + 1) d meth ws SH ltac:(lia) ltac:(lia) HM) as (R & ER & SR & AR).
  exists H, R. split; auto. split; auto. split.
  { rewrite SR, S. f_equal. f_equal. lia. }
  intros idx I. rewrite SR in I. destruct idx as [|s [|t [|]]]; simpl in I; try tauto.
  rewrite AR. replace (m - d + 1 - 1) with (m - d) by lia.
  rewrite (average_const L ws 0 (m - d) d t _ (at_ X [s; t])); auto.
  - intros i B. unfold has_block in B. rewrite !andb_true_iff, Nat.ltb_lt, !Nat.leb_le in B.
    rewrite At by lia. simpl. f_equal. f_equal. f_equal. f_equal. lia.
  - apply HW. lia.
Qed.
Lemma roundtrip_mean (L : qmod_laws M) (X : nd V) n m d : shape X = [n; m] -> 1 <= d <= m ->
  exists H R, hankel_pre d (numbers X) = Ok H /\ hankel_post (MStr "mean") d H = Ok R /\ nd_eq R X.
Proof.
  intros S Hd. apply (roundtrip_avg L X n m d (MStr "mean") (repeat (Q2Qc 1) d) S Hd); [now right|].
  intros t Ht. rewrite weight_repeat. apply Qcn_nz. apply count_pos; lia.
Qed.

(** a timestep whose available weights sum to zero is returned as zero *)
Lemma zero_weight (X : nd V) n m d ws s t : shape X = [n; m] -> 1 <= d <= m -> length ws = d ->
  s < n -> t < m -> block_weight ws 0 (m - d) d t = Q2Qc 0 ->
  exists H R, hankel_pre d (numbers X) = Ok H /\ hankel_post (MWeights ws) d H = Ok R /\
    at_ R [s; t] = qm_zero M.
Proof.
  intros S Hd Hl Hs Ht W. destruct (pseudo_hankel_ok (numbers X) n m d S Hd) as (H & E & SH & At).
  rewrite Nat.mul_comm in SH.
  destruct (post_avg H n (m - d + 1) d (MWeights ws) ws SH ltac:(lia) ltac:(lia) (or_introl (conj eq_refl Hl))) as (R & ER & SR & AR).
  exists H, R. split; auto. split; auto. rewrite AR. replace (m - d + 1 - 1) with (m - d) by lia.
  rewrite (average_full ws 0 (m - d) d t _ (fun i => at_ X [s; t])).
  - destruct (Qc_eq_dec _ _); [reflexivity|contradiction].
  - intros i B. unfold has_block in B. rewrite !andb_true_iff, Nat.ltb_lt, !Nat.leb_le in B.
    rewrite At by lia. simpl. f_equal. f_equal. f_equal. f_equal. lia.
Qed.

Lemma post_errors (Y : nd (option V)) d rows C : shape Y = [rows; C] ->
  (1 <= d -> rows mod d <> 0 -> forall meth, hankel_post meth d Y = Err ValueError) /\
  (1 <= d -> rows mod d = 0 ->
     (forall name, name <> "first"%string -> name <> "mean"%string -> hankel_post (MStr name) d Y = Err UnboundLocalError) /\
     (forall ws, length ws <> d -> hankel_post (MWeights ws) d Y = Err ValueError) /\
     hankel_post MOther d Y = Err ValueError).
Proof.
  intros S. unfold hankel_post, delay_table. rewrite S. split.
  - intros Hd R meth. destruct (Nat.eqb_spec d 0); [lia|]. destruct (Nat.eqb_spec (rows mod d) 0); [lia|]. reflexivity.
  - intros Hd R. destruct (Nat.eqb_spec d 0); [lia|]. rewrite R. cbn [Nat.eqb negb bind]. repeat split.
    + intros name N1 N2. destruct (String.eqb_spec name "first"); [contradiction|].
      destruct (String.eqb_spec name "mean"); [contradiction|]. reflexivity.
    + intros ws N. destruct (Nat.eqb_spec (length ws) d); [contradiction|]. reflexivity.
Qed.

(** ** C24: the time windows *)
Lemma slice_cols_ok {A} (a : nd A) n m lo L : shape a = [n; m] -> lo + L <= m ->
  shape (slice_cols a (Z.of_nat lo) (Z.of_nat lo + Z.of_nat L)) = [n; L] /\
  forall s j, j < L -> at_ (slice_cols a (Z.of_nat lo) (Z.of_nat lo + Z.of_nat L)) [s; j] = at_ a [s; lo + j].
Proof.
  intros S H. unfold slice_cols. rewrite S.
  set (sl := mkSlice _ _ _).
  assert (LO : slice_lo m sl = Z.of_nat lo).
  { unfold slice_lo, slice_bound, slice_step. cbn [sl sl_step sl_start]. unfold clip. simpl.
    destruct (Z.ltb_spec (Z.of_nat lo) 0); lia. }
  assert (HI : slice_hi m sl = (Z.of_nat lo + Z.of_nat L)%Z).
  { unfold slice_hi, slice_bound, slice_step. cbn [sl sl_step sl_stop]. unfold clip. simpl.
    destruct (Z.ltb_spec (Z.of_nat lo + Z.of_nat L) 0); lia. }
  assert (LE : slice_len m sl = L).
  { unfold slice_len. rewrite LO, HI. unfold slice_step. cbn [sl sl_step].
    replace (0 <? 1)%Z with true by reflexivity. rewrite Z.div_1_r.
    destruct (Z.ltb_spec (Z.of_nat lo) (Z.of_nat lo + Z.of_nat L)); lia. }
  cbn [shape at_]. rewrite LE, LO, Nat2Z.id. split; reflexivity.
Qed.

Lemma Qfloor_nat q k : (q == inject_Z (Z.of_nat k))%Q -> Qfloor q = Z.of_nat k.
Proof. intros H. rewrite (Qfloor_comp _ _ H). apply Qfloor_Z. Qed.

Lemma floordiv_ok (t o dt : Q) k : (~ dt == 0)%Q -> (t - o == inject_Z (Z.of_nat k) * dt)%Q ->
  floordiv (t - o)%Q dt = Ok (Z.of_nat k).
Proof.
  intros H E. unfold floordiv. replace (Qeq_bool dt 0) with false.
  2: { symmetry. destruct (Qeq_bool dt 0) eqn:B; auto. apply Qeq_bool_iff in B. contradiction. }
  f_equal. apply Qfloor_nat. rewrite E. field. auto.
Qed.

Lemma first_occ_ok d (orig dmd : times) time k : 1 <= d -> (tm_t0 orig == 0)%Q -> (~ tm_dt dmd == 0)%Q ->
  (time - tm_t0 orig == inject_Z (Z.of_nat k) * tm_dt dmd)%Q ->
  exists v, first_occurrence d orig dmd time = Ok v /\ (v == inject_Z (Z.of_nat (k - (d - 1))))%Q.
Proof.
  intros Hd H0 Hdt E. unfold first_occurrence. rewrite (floordiv_ok _ _ _ k Hdt E). cbn [bind].
  eexists. split; [reflexivity|].
  set (v := (inject_Z (Z.of_nat k) - (tm_t0 orig + inject_Z (Z.of_nat d) - 1))%Q).
  assert (Ev : (v == inject_Z (Z.of_nat k - (Z.of_nat d - 1)))%Q).
  { unfold v. rewrite H0. unfold Z.sub. rewrite !inject_Z_plus, !inject_Z_opp, inject_Z_plus, inject_Z_opp.
    change (inject_Z 1) with 1%Q. ring. }
  destruct (Qle_bool v 0) eqn:B.
  - apply Qle_bool_iff in B. rewrite Ev in B. change 0%Q with (inject_Z 0) in B. rewrite <- Zle_Qle in B.
    replace (k - (d - 1)) with 0 by lia. reflexivity.
  - assert (N : ~ (v <= 0)%Q) by (intros N; apply Qle_bool_iff in N; congruence).
    rewrite Ev in N. change 0%Q with (inject_Z 0) in N. rewrite <- Zle_Qle in N.
    rewrite Ev. replace (Z.of_nat (k - (d - 1))) with (Z.of_nat k - (Z.of_nat d - 1))%Z by lia. reflexivity.
Qed.

Lemma inner_ok rows (inner : Qc -> nat -> option V) a b ka kb :
  (a == inject_Z (Z.of_nat ka))%Q -> (b == inject_Z (Z.of_nat kb))%Q -> ka <= kb ->
  exists Y, inner_reconstruction rows inner a b = Ok Y /\ shape Y = [rows; kb - ka + 1] /\
    forall r c, c < kb - ka + 1 -> at_ Y [r; c] = inner (Qcn (ka + c)) r.
Proof.
  intros Ha Hb Hk. unfold inner_reconstruction.
  rewrite timesteps_count by discriminate. cbn [bind].
  assert (E : ((b - a) / 1 == inject_Z (Z.of_nat (kb - ka)))%Q).
  { rewrite Ha, Hb, Nat2Z.inj_sub by auto. unfold Z.sub. rewrite inject_Z_plus, inject_Z_opp. field. }
  rewrite (Qceiling_comp _ _ E), Qceiling_Z.
  replace (Z.to_nat (Z.of_nat (kb - ka) + 1)) with (kb - ka + 1) by lia.
  eexists. split; [reflexivity|]. rewrite map_length, seq_length. split; [reflexivity|].
  intros r c Hc. cbn [at_]. rewrite nth_map_seq by auto. f_equal.
  unfold Qcn. apply Q2Qc_eq_iff. rewrite Ha, Nat2Z.inj_add, inject_Z_plus. ring.
Qed.


Lemma window_timesteps orig dmd a b : aligned orig dmd a b -> a <= b ->
  exists ts, timesteps (tm_t0 dmd) (tm_tend dmd) (tm_dt dmd) = Ok ts /\ length ts = b - a + 1.
Proof.
  intros [H0 Hdt Ht0 Htend] Hab. rewrite timesteps_count by auto. eexists. split; [reflexivity|].
  rewrite map_length, seq_length.
  assert (E : ((tm_tend dmd - tm_t0 dmd) / tm_dt dmd == inject_Z (Z.of_nat (b - a)))%Q).
  { rewrite Ht0, Htend, Nat2Z.inj_sub by auto. unfold Z.sub. rewrite inject_Z_plus, inject_Z_opp. field. auto. }
  rewrite (Qceiling_comp _ _ E), Qceiling_Z. lia.
Qed.

(** the columns of the inner window, before the final slice *)
Lemma reconstructed_ok meth d n (inner : Qc -> nat -> option V) orig dmd a b (val : nat -> nat -> V) :
  1 <= d -> a <= b -> aligned orig dmd a b ->
  let k0 := a - (d - 1) in let k1 := b - (d - 1) in
  (forall Y, shape Y = [d * n; k1 - k0 + 1] ->
     (forall r c, c < k1 - k0 + 1 -> at_ Y [r; c] = inner (Qcn (k0 + c)) r) ->
     exists R, hankel_post meth d Y = Ok R /\ shape R = [n; k1 - k0 + 1 + d - 1] /\
       forall s t, Nat.min (d - 1) a <= t < k1 - k0 + 1 + d - 1 -> at_ R [s; t] = val s (k0 + t)) ->
  exists R, hankel_reconstructed meth d (d * n) inner orig dmd = Ok R /\ shape R = [n; b - a + 1] /\
    forall s j, j < b - a + 1 -> at_ R [s; j] = val s (a + j).
Proof.
  intros Hd Hab Al k0 k1 Post. pose proof Al as [H0 Hdt Ht0 Htend].
  assert (E0 : (tm_t0 dmd - tm_t0 orig == inject_Z (Z.of_nat a) * tm_dt dmd)%Q) by (rewrite H0, Ht0; ring).
  assert (E1 : (tm_tend dmd - tm_t0 orig == inject_Z (Z.of_nat b) * tm_dt dmd)%Q) by (rewrite H0, Htend; ring).
  unfold hankel_reconstructed.
  destruct (first_occ_ok d orig dmd _ a Hd H0 Hdt E0) as (va & -> & Ea).
  destruct (first_occ_ok d orig dmd _ b Hd H0 Hdt E1) as (vb & -> & Eb). cbn [bind].
  rewrite (floordiv_ok _ _ _ a Hdt E0). cbn [bind].
  destruct (inner_ok (d * n) inner va vb k0 k1 Ea Eb ltac:(unfold k0, k1; lia)) as (Y & -> & SY & AY). cbn [bind].
  destruct (Post Y SY AY) as (R & -> & SR & AR). cbn [bind].
  destruct (window_timesteps orig dmd a b Al Hab) as (ts & -> & Lts). cbn [bind]. rewrite Lts.
  replace (Z.min (Z.of_nat d - 1) (Z.of_nat a)) with (Z.of_nat (Nat.min (d - 1) a)) by lia.
  destruct (slice_cols_ok R n (k1 - k0 + 1 + d - 1) (Nat.min (d - 1) a) (b - a + 1) SR
              ltac:(unfold k0, k1; lia)) as [SS AS].
  eexists. split; [reflexivity|]. split; [exact SS|].
  intros s j Hj. rewrite AS by auto. rewrite AR by (unfold k0, k1; lia). f_equal. unfold k0. lia.
Qed.

Lemma reconstructed_first d n (inner : Qc -> nat -> option V) orig dmd a b :
  1 <= d -> a <= b -> aligned orig dmd a b ->
  exists R, hankel_reconstructed (MStr "first") d (d * n) inner orig dmd = Ok R /\ shape R = [n; b - a + 1] /\
    forall s j, j < b - a + 1 -> let t := a + j in let i := Nat.min t (d - 1) in
      at_ R [s; j] = fill M (inner (Qcn (t - i)) (i * n + s)).
Proof.
  intros Hd Hab Al.
  apply (reconstructed_ok (MStr "first") d n inner orig dmd a b
           (fun s t => fill M (inner (Qcn (t - Nat.min t (d - 1))) (Nat.min t (d - 1) * n + s)))); auto.
  intros Y SY AY. destruct (post_first Y n _ d SY Hd ltac:(lia)) as (R & E & SR & AR).
  exists R. split; auto. split; auto. intros s t Ht. rewrite AR by apply Ht. rewrite AY by lia.
  replace (Nat.min (a - (d - 1) + t) (d - 1)) with (Nat.min t (d - 1)) by lia.
  do 2 f_equal. f_equal. lia.
Qed.

Lemma reconstructed_avg d n (inner : Qc -> nat -> option V) orig dmd a b meth ws :
  1 <= d -> a <= b -> aligned orig dmd a b -> known_method meth d ws ->
  exists R, hankel_reconstructed meth d (d * n) inner orig dmd = Ok R /\ shape R = [n; b - a + 1] /\
    forall s j, j < b - a + 1 ->
      at_ R [s; j] = fill M (ma_average ws
        (map (fun i => if has_block (a - (d - 1)) (b - (d - 1)) d (a + j) i
                       then inner (Qcn (a + j - i)) (i * n + s) else None) (seq 0 d))).
Proof.
  intros Hd Hab Al HM.
  apply (reconstructed_ok meth d n inner orig dmd a b
           (fun s t => fill M (ma_average ws
        (map (fun i => if has_block (a - (d - 1)) (b - (d - 1)) d t i
                       then inner (Qcn (t - i)) (i * n + s) else None) (seq 0 d))))); auto.
  intros Y SY AY. destruct (post_avg Y n _ d meth ws SY Hd ltac:(lia) HM) as (R & E & SR & AR).
  exists R. split; auto. split; auto. intros s t Ht. rewrite AR. do 2 f_equal. apply map_ext_in.
  intros i Hi. apply in_seq in Hi.
  assert (B : has_block 0 (b - (d - 1) - (a - (d - 1)) + 1 - 1) d t i
            = has_block (a - (d - 1)) (b - (d - 1)) d (a - (d - 1) + t) i).
  { unfold has_block. apply eq_iff_eq_true. rewrite !andb_true_iff, !Nat.ltb_lt, !Nat.leb_le. lia. }
  rewrite <- B. destruct (has_block 0 _ d t i) eqn:C; auto.
  unfold has_block in C. rewrite !andb_true_iff, Nat.ltb_lt, !Nat.leb_le in C.
  rewrite AY by lia. do 2 f_equal. lia.
Qed.


Lemma reconstructed_exact (L : qmod_laws M) d n (inner : Qc -> nat -> option V) orig dmd a b meth x :
  1 <= d -> a <= b -> aligned orig dmd a b ->
  meth = MStr "first" \/ meth = MStr "mean" \/
    (exists ws, meth = MWeights ws /\ length ws = d /\
       forall t, a <= t <= b -> block_weight ws (a - (d - 1)) (b - (d - 1)) d t <> Q2Qc 0) ->
  tracks M n d inner x (a - (d - 1)) (b - (d - 1)) ->
  exists R, hankel_reconstructed meth d (d * n) inner orig dmd = Ok R /\ shape R = [n; b - a + 1] /\
    forall s j, s < n -> j < b - a + 1 -> at_ R [s; j] = x (a + j) s.
Proof.
  intros Hd Hab Al HM T.
  assert (Avg : forall ws, known_method meth d ws ->
     (forall t, a <= t <= b -> block_weight ws (a - (d - 1)) (b - (d - 1)) d t <> Q2Qc 0) ->
     exists R, hankel_reconstructed meth d (d * n) inner orig dmd = Ok R /\ shape R = [n; b - a + 1] /\
       forall s j, s < n -> j < b - a + 1 -> at_ R [s; j] = x (a + j) s).
  { intros ws K W. destruct (reconstructed_avg d n inner orig dmd a b meth ws Hd Hab Al K) as (R & E & SR & AR).
    exists R. split; auto. split; auto. intros s j Hs Hj. rewrite AR by auto.
    rewrite (average_const L ws _ _ d (a + j) _ (x (a + j) s)); auto.
    - intros i B. unfold has_block in B. rewrite !andb_true_iff, Nat.ltb_lt, !Nat.leb_le in B.
      rewrite T by lia. do 2 f_equal. lia.
    - apply W. lia. }
  destruct HM as [->|[->|(ws & -> & Hl & W)]].
  - destruct (reconstructed_first d n inner orig dmd a b Hd Hab Al) as (R & E & SR & AR).
    exists R. split; auto. split; auto. intros s j Hs Hj. rewrite AR by auto. cbv zeta.
    rewrite T by lia. simpl. f_equal. lia.
  - apply (Avg (repeat (Q2Qc 1) d)); [now right|]. intros t Ht. rewrite weight_repeat.
    apply Qcn_nz. apply count_pos; lia.
  - apply (Avg ws); [now left|auto].
Qed.

(** ** fit *)
Lemma fit_ok (X : nd (option V)) n m d : shape X = [n; m] -> 1 <= n -> 1 <= d -> d < m -> 2 <= m ->
  exists H tm, hankel_fit d (SArr X) = Ok (H, tm) /\ shape H = [d * n; m - d + 1] /\
    (forall k i s, k < m - d + 1 -> i < d -> s < n -> at_ H [i * n + s; k] = at_ X [s; k + i]) /\
    (tm_t0 tm == 0)%Q /\ (tm_tend tm == inject_Z (Z.of_nat m - 1))%Q /\ (tm_dt tm == 1)%Q.
Proof.
  intros S Hn Hd Hm Hm2. unfold hankel_fit.
  destruct (snapshots_array X [n] m S ltac:(discriminate) Hm2) as (Sn & E & SS & _). rewrite E. cbn [bind fst].
  rewrite SS. destruct (Nat.ltb_spec m d); [lia|].
  destruct (pseudo_hankel_ok X n m d S ltac:(lia)) as (H0 & EH & SH & At). unfold hankel_pre. rewrite EH. cbn [bind].
  rewrite SH. destruct (Nat.eqb_spec (m - d + 1) 1); [lia|].
  do 2 eexists. split; [reflexivity|]. split; [rewrite SH; f_equal; lia|].
  split. { intros k i s Hk Hi Hs. apply At; lia. }
  cbn. repeat split; reflexivity.
Qed.
Lemma fit_short (X : nd (option V)) n m d : shape X = [n; m] -> 1 <= d -> m <= d -> 1 <= m ->
  hankel_fit d (SArr X) = Err ValueError.
Proof.
  intros S Hd Hm Hm1. unfold hankel_fit. destruct (Nat.eq_dec m 1) as [->|N].
  - destruct (unroll_array X [n] 1 S ltac:(discriminate) ltac:(lia)) as (Sn & E & SS & _).
    unfold snapshots. rewrite E, SS. reflexivity.
  - destruct (snapshots_array X [n] m S ltac:(discriminate) ltac:(lia)) as (Sn & E & SS & _). rewrite E. cbn [bind fst].
    rewrite SS. destruct (Nat.ltb_spec m d); [reflexivity|].
    assert (m = d) by lia. subst m.
    destruct (pseudo_hankel_ok X n d d S ltac:(lia)) as (H0 & EH & SH & At). unfold hankel_pre. rewrite EH. cbn [bind].
    rewrite SH. replace (d - d + 1) with 1 by lia. reflexivity.
Qed.

(** ** HODMD *)
Lemma hodmd_lifts lift n meth d rows (inner : Qc -> nat -> option V) orig dmd R n' m :
  hankel_reconstructed meth d rows inner orig dmd = Ok R -> shape R = [n'; m] ->
  exists R', hodmd_reconstructed lift n meth d rows inner orig dmd = Ok R' /\ shape R' = [n; m] /\
    forall s j, at_ R' [s; j] = lift (fun r => at_ R [r; j]) s.
Proof.
  unfold hankel_reconstructed, hodmd_reconstructed.
  destruct (first_occurrence d orig dmd (tm_t0 dmd)) as [va|]; [|discriminate]. cbn [bind].
  destruct (first_occurrence d orig dmd (tm_tend dmd)) as [vb|]; [|discriminate]. cbn [bind].
  destruct (floordiv _ _) as [k|]; [|discriminate]. cbn [bind].
  destruct (inner_reconstruction rows inner va vb) as [Y|]; [|discriminate]. cbn [bind].
  destruct (hankel_post meth d Y) as [R0|] eqn:EP; [|discriminate]. cbn [bind].
  destruct (timesteps _ _ _) as [ts|]; [|discriminate]. cbn [bind].
  intros E S. injection E as E. subst R. eexists. split; [reflexivity|].
  assert (H : exists n0 m0, shape R0 = [n0; m0]).
  { unfold hankel_post, delay_table in EP. destruct (shape Y) as [|r [|c [|]]]; try discriminate.
    destruct (d =? 0); [discriminate|]. destruct (negb _); [discriminate|]. cbn [bind] in EP.
    destruct meth; [destruct (String.eqb _ _); [|destruct (String.eqb _ _)]|destruct (_ =? _)|];
      try discriminate; injection EP as <-; simpl; eauto. }
  destruct H as (n0 & m0 & S0). unfold slice_cols, lift_cols in *. rewrite S0 in *. cbn [shape at_] in *.
  injection S as S1 S2. split; [now rewrite S2|]. reflexivity.
Qed.

Lemma hodmd_exact (L : qmod_laws M) d n r lift proj (inner : Qc -> nat -> option V) orig dmd a b meth x :
  1 <= d -> a <= b -> aligned orig dmd a b ->
  meth = MStr "first" \/ meth = MStr "mean" \/
    (exists ws, meth = MWeights ws /\ length ws = d /\
       forall t, a <= t <= b -> block_weight ws (a - (d - 1)) (b - (d - 1)) d t <> Q2Qc 0) ->
  tracks M r d inner (fun t => proj (x t)) (a - (d - 1)) (b - (d - 1)) ->
  (forall u v, (forall i, i < r -> u i = v i) -> forall s, s < n -> lift u s = lift v s) ->
  (forall t s, a <= t <= b -> s < n -> lift (proj (x t)) s = x t s) ->
  exists R, hodmd_reconstructed lift n meth d (d * r) inner orig dmd = Ok R /\ shape R = [n; b - a + 1] /\
    forall s j, s < n -> j < b - a + 1 -> at_ R [s; j] = x (a + j) s.
Proof.
  intros Hd Hab Al HM T HL HP.
  destruct (reconstructed_exact L d r inner orig dmd a b meth (fun t => proj (x t)) Hd Hab Al HM T) as (R & E & SR & AR).
  destruct (hodmd_lifts lift n _ _ _ _ _ _ R r _ E SR) as (R' & E' & SR' & AR').
  exists R'. split; auto. split; auto. intros s j Hs Hj. rewrite AR'.
  rewrite <- HP by lia. apply HL; auto.
Qed.

Lemma hodmd_fit_any d proj (X : snap_input (option V)) S0 s0 n m r :
  snapshots X = Ok (S0, s0) -> shape S0 = [n; m] -> shape (proj S0) = [r; m] -> 1 <= d < m ->
  exists H tm, hodmd_fit d proj X = Ok (H, tm) /\ shape H = [d * r; m - d + 1] /\
    (forall k i s, k < m - d + 1 -> i < d -> s < r -> at_ H [i * r + s; k] = at_ (proj S0) [s; k + i]) /\
    (tm_t0 tm == 0)%Q /\ (tm_tend tm == inject_Z (Z.of_nat m - 1))%Q /\ (tm_dt tm == 1)%Q.
Proof.
  intros E S SP Hd. unfold hodmd_fit. rewrite E. cbn [bind fst]. rewrite S.
  destruct (Nat.ltb_spec m d); [lia|].
  destruct (pseudo_hankel_ok (proj S0) r m d SP ltac:(lia)) as (H0 & EH & SH & At). unfold hankel_pre. rewrite EH. cbn [bind].
  rewrite SH. destruct (Nat.eqb_spec (m - d + 1) 1); [lia|].
  do 2 eexists. split; [reflexivity|]. split; [rewrite SH; f_equal; lia|].
  split. { intros k i s Hk Hi Hs. apply At; lia. }
  cbn. repeat split; reflexivity.
Qed.

(** a window moved along the time axis selects the same columns ("first") *)
Lemma first_window_free d n (inner : Qc -> nat -> option V) orig dmd dmd' a b a' b' :
  1 <= d -> a <= b -> a' <= b' -> aligned orig dmd a b -> aligned orig dmd' a' b' ->
  exists R R', hankel_reconstructed (MStr "first") d (d * n) inner orig dmd = Ok R /\
    hankel_reconstructed (MStr "first") d (d * n) inner orig dmd' = Ok R' /\
    forall t s, a <= t <= b -> a' <= t <= b' -> at_ R [s; t - a] = at_ R' [s; t - a'].
Proof.
  intros Hd H1 H2 A1 A2.
  destruct (reconstructed_first d n inner orig dmd a b Hd H1 A1) as (R & E & SR & AR).
  destruct (reconstructed_first d n inner orig dmd' a' b' Hd H2 A2) as (R' & E' & SR' & AR').
  exists R, R'. split; auto. split; auto. intros t s T1 T2. rewrite AR, AR' by lia. cbv zeta.
  replace (a + (t - a)) with t by lia. replace (a' + (t - a')) with t by lia. reflexivity.
Qed.

Lemma reconstructed_mean_values d n (inner : Qc -> nat -> option V) orig dmd a b meth ws (y : nat -> nat -> V) :
  1 <= d -> a <= b -> aligned orig dmd a b -> known_method meth d ws ->
  (forall k r, inner (Qcn k) r = Some (y k r)) ->
  (forall t, a <= t <= b -> block_weight ws (a - (d - 1)) (b - (d - 1)) d t <> Q2Qc 0) ->
  exists R, hankel_reconstructed meth d (d * n) inner orig dmd = Ok R /\ shape R = [n; b - a + 1] /\
    forall s j, j < b - a + 1 -> let t := a + j in
      let k0 := a - (d - 1) in let k1 := b - (d - 1) in
      at_ R [s; j] = qm_scale M (/ block_weight ws k0 k1 d t)%Qc
                       (block_sum M ws k0 k1 d t (fun i => y (t - i) (i * n + s))).
Proof.
  intros Hd Hab Al K HY W.
  destruct (reconstructed_avg d n inner orig dmd a b meth ws Hd Hab Al K) as (R & E & SR & AR).
  exists R. split; auto. split; auto. intros s j Hj t k0 k1. rewrite AR by auto.
  rewrite (average_full ws k0 k1 d t _ (fun i => y (t - i) (i * n + s))) by (intros; apply HY).
  destruct (Qc_eq_dec _ _) as [Z|]; [|reflexivity]. exfalso. apply (W t); auto. unfold t. lia.
Qed.
End Mod.
