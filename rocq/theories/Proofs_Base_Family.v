(** Proofs for C03/C04: indexing and independence of the copies. *)
From Coq Require Import List ZArith Lia Bool.
From Verif Require Import Py Model_Base Spec_Base Proofs_Base_View.
Import ListNotations.
Local Open Scope nat_scope.

(** ** Keys *)

Lemma length_mask_of n ps : length (mask_of n ps) = n.
Proof. unfold mask_of. now rewrite map_length, seq_length. Qed.

Lemma nth_mask_of n ps i : i < n -> nth_error (mask_of n ps) i = Some (existsb (Nat.eqb i) ps).
Proof.
  intros H. unfold mask_of.
  erewrite map_nth_error; [reflexivity|].
  rewrite nth_error_nth' with (d := 0) by now rewrite seq_length.
  now rewrite seq_nth.
Qed.

Lemma key_mask_length n k m : key_mask n k = Ok m -> length m = n.
Proof.
  destruct k; simpl.
  - destruct (norm_index n z); [|discriminate]. intros H; injection H as <-. apply length_mask_of.
  - intros H; injection H as <-. apply repeat_length.
  - destruct (slice_positions n s); simpl; [|discriminate].
    intros H; injection H as <-. apply length_mask_of.
  - destruct (negb (length l =? 0) && forallb elem_is_bool l).
    + destruct (Nat.eqb_spec (length l) n); [|discriminate].
      intros H; injection H as <-. now rewrite map_length.
    + destruct (norm_all n (map elem_val l)); simpl; [|discriminate].
      intros H; injection H as <-. apply length_mask_of.
  - destruct int_dtype; [|discriminate]. intros H; injection H as <-. apply repeat_length.
  - discriminate.
Qed.

Lemma existsb_eqb i ps : existsb (Nat.eqb i) ps = true <-> In i ps.
Proof.
  rewrite existsb_exists. split.
  - intros (x & H & E). apply Nat.eqb_eq in E. now subst.
  - intros H. exists i. split; auto. apply Nat.eqb_refl.
Qed.

Lemma norm_all_spec n l ps : norm_all n l = Ok ps ->
  forall i, In i ps <-> exists z, In z l /\ denotes n z i.
Proof.
  revert ps; induction l as [|z l IH]; simpl; intros ps H i.
  - injection H as <-. split; [contradiction|]. now intros (z & [] & _).
  - destruct (norm_index n z) as [j|] eqn:E; [|discriminate].
    destruct (norm_all n l) as [r|]; [|discriminate]. injection H as <-.
    specialize (IH r eq_refl i). apply norm_index_spec in E. simpl. rewrite IH. split.
    + intros [<-|(z' & A & B)].
      * exists z. split; auto.
      * exists z'. auto.
    + intros (z' & [<-|A] & B).
      * left. destruct B as [B1 B2], E as [E1 E2]. lia.
      * right. eauto.
Qed.

Lemma norm_all_err n l x : norm_all n l = Err x ->
  x = IndexError /\ exists z, In z l /\ norm_index n z = None.
Proof.
  induction l as [|z l IH]; simpl; [discriminate|].
  destruct (norm_index n z) eqn:E.
  - destruct (norm_all n l); [discriminate|]. simpl. intros H. injection H as <-.
    destruct IH as (A & z' & B & C); auto. split; eauto.
  - intros H; injection H as <-. eauto.
Qed.

Lemma slice_pos_len n s st : slice_step s = st -> (0 < st)%Z ->
  forall t, t < slice_len n s <-> (slice_lo n s + Z.of_nat t * st < slice_hi n s)%Z.
Proof.
  intros E P t. unfold slice_len. rewrite E.
  destruct (Z.ltb_spec 0 st); [|lia].
  destruct (Z.ltb_spec (slice_lo n s) (slice_hi n s)).
  - set (D := (slice_hi n s - slice_lo n s - 1)%Z).
    assert (HD : (0 <= D)%Z) by (unfold D; lia).
    pose proof (Z.div_mod D st ltac:(lia)) as DM.
    pose proof (Z.mod_pos_bound D st P) as MB.
    assert (HQ : (0 <= D / st)%Z) by (apply Z.div_pos; lia).
    split; intros Q.
    + assert (Z.of_nat t <= D / st)%Z by lia.
      assert (Z.of_nat t * st <= D / st * st)%Z by nia. unfold D in *; lia.
    + assert (Z.of_nat t * st <= D)%Z by (unfold D; lia).
      assert (Z.of_nat t <= D / st)%Z by (apply Z.div_le_lower_bound; lia). lia.
  - split; [lia|]. intros Q. assert (0 <= Z.of_nat t * st)%Z by nia. lia.
Qed.

Lemma slice_neg_len n s st : slice_step s = st -> (st < 0)%Z ->
  forall t, t < slice_len n s <-> (slice_hi n s < slice_lo n s + Z.of_nat t * st)%Z.
Proof.
  intros E P t. unfold slice_len. rewrite E.
  destruct (Z.ltb_spec 0 st); [lia|].
  destruct (Z.ltb_spec (slice_hi n s) (slice_lo n s)).
  - set (D := (slice_lo n s - slice_hi n s - 1)%Z).
    assert (HD : (0 <= D)%Z) by (unfold D; lia).
    pose proof (Z.div_mod D (-st) ltac:(lia)) as DM.
    pose proof (Z.mod_pos_bound D (-st) ltac:(lia)) as MB.
    assert (HQ : (0 <= D / -st)%Z) by (apply Z.div_pos; lia).
    split; intros Q.
    + assert (Z.of_nat t <= D / -st)%Z by lia.
      assert (Z.of_nat t * (-st) <= D / -st * (-st))%Z by nia. unfold D in *; lia.
    + assert (Z.of_nat t * (-st) <= D)%Z by (unfold D; lia).
      assert (Z.of_nat t <= D / -st)%Z by (apply Z.div_le_lower_bound; lia). lia.
  - split; [lia|]. intros Q. assert (Z.of_nat t * st <= 0)%Z by nia. lia.
Qed.

Lemma slice_lo_range n s : slice_step s <> 0%Z ->
  (if (0 <? slice_step s)%Z then (0 <= slice_lo n s <= Z.of_nat n)%Z
   else (-1 <= slice_lo n s <= Z.of_nat n - 1)%Z).
Proof.
  intros H. unfold slice_lo, slice_bound, clip.
  destruct (Z.ltb_spec 0 (slice_step s)); destruct (sl_start s); try lia;
    destruct (z <? 0)%Z; lia.
Qed.
Lemma slice_hi_range n s : slice_step s <> 0%Z ->
  (if (0 <? slice_step s)%Z then (0 <= slice_hi n s <= Z.of_nat n)%Z
   else (-1 <= slice_hi n s <= Z.of_nat n - 1)%Z).
Proof.
  intros H. unfold slice_hi, slice_bound, clip.
  destruct (Z.ltb_spec 0 (slice_step s)); destruct (sl_stop s); try lia;
    destruct (z <? 0)%Z; lia.
Qed.

Lemma slice_positions_spec n s ps i :
  slice_positions n s = Ok ps -> (In i ps <-> in_slice n s i).
Proof.
  unfold slice_positions. destruct (Z.eqb_spec (slice_step s) 0) as [|NZ]; [discriminate|].
  intros H; injection H as <-. rewrite in_map_iff. unfold in_slice.
  pose proof (slice_lo_range n s NZ) as LR. pose proof (slice_hi_range n s NZ) as HR.
  destruct (Z.ltb_spec 0 (slice_step s)) as [P|P].
  - pose proof (slice_pos_len n s _ eq_refl P) as L. split.
    + intros (t & <- & Ht). apply in_seq in Ht. assert (Lt : t < slice_len n s) by lia.
      apply L in Lt. assert (0 <= Z.of_nat t * slice_step s)%Z by nia.
      split; [lia|]. exists t. lia.
    + intros (Hi & t & E & B). exists t. split; [lia|]. apply in_seq.
      split; [lia|]. apply L. lia.
  - assert (P' : (slice_step s < 0)%Z) by lia.
    pose proof (slice_neg_len n s _ eq_refl P') as L. split.
    + intros (t & <- & Ht). apply in_seq in Ht. assert (Lt : t < slice_len n s) by lia.
      apply L in Lt. assert (Z.of_nat t * slice_step s <= 0)%Z by nia.
      split; [lia|]. exists t. lia.
    + intros (Hi & t & E & B). exists t. split; [lia|]. apply in_seq.
      split; [lia|]. apply L. lia.
Qed.

Lemma forallb_bool_spec l :
  forallb elem_is_bool l = true <-> (forall x, In x l -> elem_is_bool x = true).
Proof. apply forallb_forall. Qed.

(** the mask built by [mask[key] = True] is exactly membership *)
Lemma key_mask_spec n k m : key_mask n k = Ok m ->
  forall i, i < n -> (nth_error m i = Some true <-> key_selects n k i).
Proof.
  intros H i Hi. destruct k; simpl in H |- *.
  - destruct (norm_index n z) as [j|] eqn:E; [|discriminate]. injection H as <-.
    rewrite nth_mask_of by auto. simpl. rewrite orb_false_r. apply norm_index_spec in E.
    unfold denotes. split.
    + intros Q. injection Q as Q. apply Nat.eqb_eq in Q. subst; auto.
    + intros [A B]. f_equal. apply Nat.eqb_eq. lia.
  - injection H as <-. rewrite nth_error_nth' with (d := b) by now rewrite repeat_length.
    rewrite nth_repeat. split; congruence.
  - destruct (slice_positions n s) as [ps|] eqn:E; [|discriminate]. injection H as <-.
    rewrite nth_mask_of by auto. rewrite <- (slice_positions_spec n s ps i E), <- existsb_eqb.
    split; congruence.
  - destruct (Nat.eqb_spec (length l) 0) as [L|L]; simpl in H.
    + destruct l; [|discriminate]. simpl in H. injection H as <-.
      rewrite nth_mask_of by auto. simpl. split; [discriminate|].
      intros [(x & [] & _)|(_ & Q)]. destruct i; discriminate.
    + destruct (forallb elem_is_bool l) eqn:FB.
      * destruct (Nat.eqb_spec (length l) n); [|discriminate]. injection H as <-.
        rewrite forallb_bool_spec in FB.
        destruct (nth_error l i) as [x|] eqn:E.
        2: { apply nth_error_None in E. lia. }
        erewrite map_nth_error by eauto.
        assert (B : elem_is_bool x = true) by (apply FB; eapply nth_error_In; eauto).
        destruct x as [|b|]; try discriminate. split.
        -- intros Q. injection Q as ->. right. auto.
        -- intros [(x & A & B' & C)|(A & B')]; [tauto|congruence].
      * assert (NB : ~ forall x, In x l -> elem_is_bool x = true).
        { rewrite <- forallb_bool_spec. congruence. }
        destruct (norm_all n (map elem_val l)) as [ps|] eqn:E; [|discriminate].
        injection H as <-. rewrite nth_mask_of by auto.
        pose proof (norm_all_spec _ _ _ E i) as S.
        assert (T : Some (existsb (Nat.eqb i) ps) = Some true <-> In i ps).
        { rewrite <- existsb_eqb. split; congruence. }
        rewrite T, S. split.
        -- intros (z & A & B). apply in_map_iff in A as (x & <- & A). left. eauto.
        -- intros [(x & A & B & C)|(A & B)]; [|tauto].
           exists (elem_val x). split; auto. now apply in_map.
  - destruct int_dtype; [|discriminate]. injection H as <-.
    rewrite nth_error_nth' with (d := false) by now rewrite repeat_length.
    rewrite nth_repeat. split; [discriminate|tauto].
  - discriminate.
Qed.

(** ** The family refinement *)
Section P.
Context {V : Type}.
Implicit Types (w : world V).
Variables (ms es bs : list V).
Hypothesis Lms : length ms = length es.
Hypothesis Lbs : length bs = length es.

Notation tbl := (table ms es bs).
Lemma tbl_length k : length (tbl k) = length es.
Proof. destruct k; auto. Qed.

Definition inst_rel w (o3 : kind -> loc) (s : inst) (mask : list bool) : Prop :=
  in_op s = 0 /\ in_b s = Some (o3 KAmps) /\ length mask = length es /\
  match in_px s with
  | None => mask = repeat true (length es)
  | Some p => exists px, proxy_at w p = Some px /\ (forall k, px_orig px k = o3 k) /\
      px_mask px = mask /\
      (forall k, px_prox px k < next w /\ (forall k', px_prox px k <> o3 k') /\
                 hget w (px_prox px k) = sel mask (tbl k))
  end.

Definition px_inj w : Prop := forall i j si sj p,
  nth_error (insts w) i = Some si -> nth_error (insts w) j = Some sj ->
  in_px si = Some p -> in_px sj = Some p -> i = j.

Record FR w (F : family) (o3 : kind -> loc) : Prop := {
  f_opers : opers w = [mkOper (Some (o3 KModes)) (Some (o3 KEigs))];
  f_inj : forall k k', o3 k = o3 k' -> k = k';
  f_lt : forall k, o3 k < next w;
  f_tbl : forall k, hget w (o3 k) = tbl k;
  f_insts : Forall2 (inst_rel w o3) (insts w) F;
  f_px : px_inj w }.

Lemma inst_rel_mono w w' o3 s mask :
  (forall l, l < next w -> hget w' l = hget w l) -> next w <= next w' ->
  (forall p px, proxy_at w p = Some px -> in_px s = Some p -> proxy_at w' p = Some px) ->
  inst_rel w o3 s mask -> inst_rel w' o3 s mask.
Proof.
  intros Hh Hn Hp (A & B & C & D). repeat split; auto.
  destruct (in_px s) as [p|]; auto. destruct D as (px & P1 & P2 & P3 & P4).
  exists px. repeat split; auto; try apply P4.
  - specialize (P4 k). lia.
  - rewrite Hh; apply P4.
Qed.

Lemma Forall2_upd {A B} (P Q : A -> B -> Prop) l l' i x y :
  Forall2 P l l' -> Q x y ->
  (forall j a b, j <> i -> nth_error l j = Some a -> nth_error l' j = Some b -> P a b -> Q a b) ->
  Forall2 Q (upd l i x) (upd l' i y).
Proof.
  intros H Hx Hj. revert i Hj. induction H as [|a b l l' Hab H IH]; intros i Hj; simpl.
  - constructor.
  - destruct i as [|i]; simpl; constructor; auto.
    + clear IH. assert (G : forall j a b, nth_error l j = Some a -> nth_error l' j = Some b -> P a b -> Q a b).
      { intros j a0 b0 E1 E2. apply (Hj (S j)); auto. }
      clear Hj Hab. induction H; constructor; auto.
      * apply (G 0); auto.
      * apply IHForall2. intros j a0 b0. apply (G (S j)).
    + apply (Hj 0); auto.
    + apply IH. intros j a0 b0 Hji. apply (Hj (S j)). lia.
Qed.

Lemma Forall2_impl_nth {A B} (P Q : A -> B -> Prop) l l' :
  Forall2 P l l' ->
  (forall j a b, nth_error l j = Some a -> nth_error l' j = Some b -> P a b -> Q a b) ->
  Forall2 Q l l'.
Proof.
  intros H; induction H; intros G; constructor.
  - apply (G 0); auto.
  - apply IHForall2. intros j a b. apply (G (S j)).
Qed.

Lemma nth_upd_lookup {A} (l : list A) i j x y :
  nth_error (upd l i x) j = Some y ->
  (j = i /\ y = x) \/ (j <> i /\ nth_error l j = Some y).
Proof.
  rewrite nth_error_upd. destruct (Nat.eqb_spec i j).
  - destruct (Nat.ltb i (length l)); intros H; inversion H; auto.
  - auto.
Qed.

(** allocation of a fresh proxy for instance [i], with arbitrary previous proxy *)
Lemma allocate_F w F o3 i s :
  FR w F o3 -> nth_error (insts w) i = Some s -> in_op s = 0 -> in_b s = Some (o3 KAmps) ->
  exists w', let s' := with_px s (Some (length (proxies w))) in
    allocate w i s = (w', Ok s') /\
    opers w' = opers w /\ insts w' = upd (insts w) i s' /\ next w <= next w' /\
    (forall l, l < next w -> hget w' l = hget w l) /\
    (forall p px, proxy_at w p = Some px -> proxy_at w' p = Some px) /\
    length (proxies w') = S (length (proxies w)) /\
    inst_rel w' o3 s' (repeat true (length es)).
Proof.
  intros H I O B. unfold allocate. rewrite B. unfold oper_of. rewrite O, (f_opers _ _ _ H). simpl.
  unfold proxy_init. rewrite !(f_tbl _ _ _ H). simpl.
  rewrite !np_mask_get_ok by (rewrite repeat_length; auto).
  assert (S1 : forall k, sel (repeat true (length es)) (tbl k) = tbl k).
  { intros k. rewrite <- (tbl_length k). apply sel_repeat_true. }
  pose proof (S1 KModes) as Sm; pose proof (S1 KEigs) as Se; pose proof (S1 KAmps) as Sb.
  simpl in Sm, Se, Sb. simpl. rewrite Sm, Se, Sb.
  set (w1 := halloc w ms). set (w2 := halloc w1 es). set (w3 := halloc w2 bs).
  assert (N1 : next w1 = S (next w)) by apply next_halloc.
  assert (N2 : next w2 = S (S (next w))) by (unfold w2; rewrite next_halloc; lia).
  assert (N3 : next w3 = S (S (S (next w)))) by (unfold w3; rewrite next_halloc; lia).
  assert (G : forall l, l < next w -> hget w3 l = hget w l).
  { intros l Hl. unfold w3, w2, w1. rewrite !hget_halloc_lt; auto; rewrite ?next_halloc; lia. }
  eexists. split; [reflexivity|]. split; [exact (f_opers _ _ _ H)|]. split; [reflexivity|].
  split. { change (next w <= next w3). lia. }
  split; [exact G|].
  split. { intros p px Hp. unfold proxy_at in *. simpl. rewrite nth_error_app1; auto.
           apply nth_error_Some. congruence. }
  split. { simpl. rewrite app_length. simpl. lia. }
  split; [exact O|]. split; [exact B|]. split; [apply repeat_length|].
  simpl. eexists. split; [apply (proxy_at_last w3)|].
  split; [intros []; reflexivity|]. split; [reflexivity|].
  intros k. rewrite S1. pose proof (f_lt _ _ _ H) as L. split; [|split].
  - change (px_prox (mkProxy (o3 KModes) (o3 KEigs) (o3 KAmps) (repeat true (length es)) (next w) (next w1) (next w2)) k < next w3).
    destruct k; simpl; lia.
  - intros k'. specialize (L k'). destruct k; simpl; lia.
  - destruct k; simpl.
    + change (hget w3 (next w) = ms). unfold w3, w2.
      rewrite !hget_halloc_lt by (rewrite ?next_halloc; lia). apply hget_halloc_eq.
    + change (hget w3 (next w1) = es). unfold w3.
      rewrite !hget_halloc_lt by (rewrite ?next_halloc; lia). apply hget_halloc_eq.
    + change (hget w3 (next w2) = bs). apply hget_halloc_eq.
Qed.

Lemma Forall2_length2 {A B} (P : A -> B -> Prop) l l' : Forall2 P l l' -> length l = length l'.
Proof. induction 1; simpl; auto. Qed.

Lemma upd_same {A} (l : list A) i x : nth_error l i = Some x -> upd l i x = l.
Proof. revert i; induction l; intros [|i]; simpl; intros H; try discriminate; f_equal; auto. congruence. Qed.

Definition px_bound w := forall i s p, nth_error (insts w) i = Some s -> in_px s = Some p -> p < length (proxies w).
Lemma FR_bound w F o3 : FR w F o3 -> px_bound w.
Proof.
  intros H i s p I P. pose proof (Forall2_nth _ _ _ i (f_insts _ _ _ H)) as N. rewrite I in N.
  destruct (nth_error F i); [|contradiction]. destruct N as (_ & _ & _ & N). rewrite P in N.
  destruct N as (px & N & _). apply nth_error_Some. unfold proxy_at in N. congruence.
Qed.

Lemma fitted_F w F o3 s : FR w F o3 -> in_op s = 0 -> fitted w s = true.
Proof. intros H O. unfold fitted, oper_of. now rewrite O, (f_opers _ _ _ H). Qed.

(** [ensure] keeps the relation and yields a proxy *)
Lemma ensure_F w F o3 i s mask :
  FR w F o3 -> nth_error (insts w) i = Some s -> nth_error F i = Some mask ->
  exists w' s' p px,
    ensure w i s = (w', Ok s') /\ FR w' F o3 /\ nth_error (insts w') i = Some s' /\
    in_px s' = Some p /\ proxy_at w' p = Some px /\ px_mask px = mask /\
    length (insts w') = length (insts w) /\
    (forall k, px_orig px k = o3 k) /\
    (forall k, px_prox px k < next w' /\ (forall k', px_prox px k <> o3 k') /\
               hget w' (px_prox px k) = sel mask (tbl k)).
Proof.
  intros H I Fi. pose proof (Forall2_nth _ _ _ i (f_insts _ _ _ H)) as N. rewrite I, Fi in N.
  pose proof N as (O & B & L & D). unfold ensure. destruct (in_px s) as [p|] eqn:P.
  - destruct D as (px & D1 & D2 & D3 & D4). exists w, s, p, px. intuition.
  - destruct (allocate_F w F o3 i s H I O B) as (w' & A & A1 & A2 & A3 & A4 & A5 & A6 & A7).
    rewrite A. set (s' := with_px s (Some (length (proxies w)))) in *.
    assert (I' : nth_error (insts w') i = Some s').
    { rewrite A2. apply nth_error_upd_eq. apply nth_error_Some. congruence. }
    subst mask. pose proof A7 as (_ & _ & _ & E). simpl in E.
    destruct E as (px & E1 & E2 & E3 & E4).
    exists w', s', (length (proxies w)), px. split; [reflexivity|]. split.
    + constructor.
      * rewrite A1. apply (f_opers _ _ _ H).
      * apply (f_inj _ _ _ H).
      * intros k. pose proof (f_lt _ _ _ H k). lia.
      * intros k. rewrite A4 by apply (f_lt _ _ _ H). apply (f_tbl _ _ _ H).
      * rewrite A2. rewrite <- (upd_same F i _ Fi).
        eapply Forall2_upd; [apply (f_insts _ _ _ H)|exact A7|].
        intros j a b _ _ _. apply inst_rel_mono; auto.
      * intros i1 i2 s1 s2 p' I1 I2 P1 P2. rewrite A2 in I1, I2.
        apply nth_upd_lookup in I1 as [[-> ->]|[? I1]]; apply nth_upd_lookup in I2 as [[-> ->]|[? I2]]; auto.
        -- simpl in P1. injection P1 as <-. pose proof (FR_bound _ _ _ H _ _ _ I2 P2). lia.
        -- simpl in P2. injection P2 as <-. pose proof (FR_bound _ _ _ H _ _ _ I1 P1). lia.
        -- eapply (f_px _ _ _ H); eauto.
    + repeat split; auto; try apply E4. rewrite A2, length_upd. auto.
Qed.

Lemma change_mask_F w F o3 i s p px mask value :
  FR w F o3 -> nth_error (insts w) i = Some s -> nth_error F i = Some mask ->
  in_px s = Some p -> proxy_at w p = Some px -> length value = length es ->
  exists w', change_mask w p value = (w', Ok tt) /\ FR w' (upd F i value) o3 /\
             insts w' = insts w.
Proof.
  intros H I Fi P Hp Lv. pose proof (Forall2_nth _ _ _ i (f_insts _ _ _ H)) as N. rewrite I, Fi in N.
  pose proof N as (O & B & L & D). rewrite P in D. destruct D as (px' & D1 & D2 & D3 & D4).
  rewrite Hp in D1. injection D1 as <-.
  unfold change_mask. rewrite Hp.
  pose proof (D2 KModes) as Om; pose proof (D2 KEigs) as Oe; pose proof (D2 KAmps) as Oa. simpl in Om, Oe, Oa.
  pose proof (D4 KModes) as (_ & _ & Pm); pose proof (D4 KEigs) as (_ & _ & Pe); pose proof (D4 KAmps) as (_ & _ & Pa).
  simpl in Pm, Pe, Pa.
  rewrite Om, Oe, Oa, !(f_tbl _ _ _ H), Pm, Pe, Pa, D3. simpl.
  rewrite !np_mask_set_ok by (try apply length_sel; congruence). simpl.
  rewrite !unsel_sel by congruence.
  set (w1 := hset (hset (hset w (o3 KModes) _) (o3 KEigs) _) (o3 KAmps) _).
  assert (N1 : next w1 = next w) by (unfold w1; now rewrite !next_hset).
  assert (Hw : forall l, hget w1 l = hget w l).
  { assert (Q : forall w0 l0 l, next w0 = next w -> (forall l, hget w0 l = hget w l) ->
                 (exists k, l0 = o3 k) -> hget (hset w0 l0 (hget w l0)) l = hget w l).
    { intros w0 l0 l E1 E2 (k & ->). destruct (Nat.eq_dec (o3 k) l) as [<-|Ne].
      - rewrite hget_hset_eq; auto. rewrite E1. apply (f_lt _ _ _ H).
      - rewrite hget_hset_neq; auto. }
    unfold w1. rewrite <- (f_tbl _ _ _ H KModes : hget w (o3 KModes) = ms).
    rewrite <- (f_tbl _ _ _ H KEigs : hget w (o3 KEigs) = es).
    rewrite <- (f_tbl _ _ _ H KAmps : hget w (o3 KAmps) = bs).
    intros l. apply Q; [now rewrite !next_hset| |eauto].
    intros l'. apply Q; [now rewrite !next_hset| |eauto].
    intros l''. apply Q; eauto. }
  rewrite !Hw, !(f_tbl _ _ _ H). simpl.
  rewrite !np_mask_get_ok by congruence. simpl.
  set (w2 := halloc w1 _). set (w3 := halloc w2 _). set (w4 := halloc w3 _).
  set (px' := mkProxy _ _ _ _ _ _ _).
  assert (N2 : next w2 = S (next w)) by (unfold w2; rewrite next_halloc; lia).
  assert (N3 : next w3 = S (S (next w))) by (unfold w3; rewrite next_halloc; lia).
  assert (N4 : next w4 = S (S (S (next w)))) by (unfold w4; rewrite next_halloc; lia).
  assert (G : forall l, l < next w -> hget w4 l = hget w l).
  { intros l Hl. unfold w4, w3, w2. rewrite !hget_halloc_lt; auto; rewrite ?next_halloc; try lia. }
  exists (set_proxy w4 p px'). split; auto. split; [|reflexivity].
  pose proof (f_lt _ _ _ H) as LT.
  assert (Gp : forall k, hget w4 (px_prox px' k) = sel value (tbl k)).
  { intros []; simpl.
    - unfold w4, w3. rewrite !hget_halloc_lt by (rewrite ?next_halloc; lia). apply hget_halloc_eq.
    - unfold w4. rewrite !hget_halloc_lt by (rewrite ?next_halloc; lia). apply hget_halloc_eq.
    - apply hget_halloc_eq. }
  constructor.
  - apply (f_opers _ _ _ H).
  - apply (f_inj _ _ _ H).
  - intros k. change (o3 k < next w4). specialize (LT k). lia.
  - intros k. change (hget w4 (o3 k) = tbl k). rewrite G by auto. apply (f_tbl _ _ _ H).
  - change (insts (set_proxy w4 p px')) with (insts w).
    rewrite <- (upd_same (insts w) i _ I).
    eapply Forall2_upd; [apply (f_insts _ _ _ H)| |].
    + repeat split; auto. rewrite P. exists px'. split.
      * unfold proxy_at, set_proxy; simpl. apply nth_error_upd_eq.
        apply nth_error_Some. unfold proxy_at in Hp. congruence.
      * split; [intros []; reflexivity|]. split; [reflexivity|].
        intros k. split; [|split; [|apply Gp]].
        -- change (px_prox px' k < next w4). destruct k; simpl; lia.
        -- intros k'. specialize (LT k'). destruct k; simpl; lia.
    + intros j a b J Ia _. apply inst_rel_mono.
      * exact G.
      * change (next w <= next w4). lia.
      * intros p' px0 Q1 Q2. unfold proxy_at, set_proxy in *; simpl.
        rewrite nth_error_upd_neq; auto. intros <-. apply J. eapply (f_px _ _ _ H); eauto.
  - exact (f_px _ _ _ H).
Qed.

Lemma FR_lookup w F o3 i : FR w F o3 ->
  match nth_error (insts w) i, nth_error F i with
  | Some s, Some mask => inst_rel w o3 s mask | None, None => True | _, _ => False end.
Proof. intros H. apply (Forall2_nth _ _ _ i (f_insts _ _ _ H)). Qed.

Lemma FR_handle w F o3 l : FR w F o3 -> FR (add_handle w l) F o3.
Proof. intros []. constructor; auto. Qed.

Lemma set_mask_F w F o3 i s mask v :
  FR w F o3 -> nth_error (insts w) i = Some s -> nth_error F i = Some mask -> maskval_ok v ->
  let '(F', r) := (if mv_bool v then
        if list_eq_dec Nat.eq_dec (mv_shape v) [length es]
        then (upd F i (mv_data v), Ok tt) else (F, Err ValueError)
      else (F, Err RuntimeError)) in
  exists w', set_mask w i s v = (w', r) /\ FR w' F' o3 /\ length (insts w') = length (insts w).
Proof.
  intros H I Fi Hv. pose proof (FR_lookup _ _ _ i H) as N. rewrite I, Fi in N.
  destruct N as (O & _ & L & _).
  unfold set_mask. rewrite (fitted_F _ _ _ _ H O).
  destruct (mv_bool v). 2: { eauto. }
  unfold get_mask. rewrite (fitted_F _ _ _ _ H O).
  destruct (ensure_F _ _ _ _ _ _ H I Fi) as (w1 & s1 & p & px & E & H1 & I1 & P1 & Q1 & M1 & LL & OO & Pp).
  rewrite E, P1, Q1, M1, L.
  destruct (list_eq_dec Nat.eq_dec (mv_shape v) [length es]) as [Sh|Sh].
  - rewrite I1, P1.
    destruct (change_mask_F _ _ _ _ _ _ _ _ (mv_data v) H1 I1 Fi P1 Q1) as (w2 & C & H2 & C2).
    { unfold maskval_ok in Hv. rewrite Sh in Hv. simpl in Hv. lia. }
    exists w2. rewrite C. split; [reflexivity|]. split; [exact H2|]. now rewrite C2.
  - eauto.
Qed.

Lemma getitem_F w F o3 i s mask k :
  FR w F o3 -> nth_error (insts w) i = Some s -> nth_error F i = Some mask ->
  let '(F', r) := match fam_item (length es) k with
      | Ok m => (F ++ [m], Ok (length F)) | Err x => (F, Err x) end in
  exists w', getitem w i s k = (w', r) /\ FR w' F' o3.
Proof.
  intros H I Fi. unfold fam_item, getitem. destruct (check_key k); [|eauto].
  pose proof (FR_lookup _ _ _ i H) as N. rewrite I, Fi in N. destruct N as (O & _ & L & _).
  unfold get_mask. rewrite (fitted_F _ _ _ _ H O).
  destruct (ensure_F _ _ _ _ _ _ H I Fi) as (w1 & s1 & p & px & E & H1 & I1 & P1 & Q1 & M1 & LL & OO & Pp).
  rewrite E, P1, Q1, M1, L.
  destruct (key_mask (length es) k) as [m|x] eqn:K; [|eauto].
  apply key_mask_length in K. rewrite I1.
  pose proof (FR_lookup _ _ _ i H1) as N. rewrite I1, Fi in N. destruct N as (O1 & B1 & _ & _).
  (* the shallow copy: relation holds except that the proxy is shared; allocate repairs it *)
  set (j := length (insts w1)). set (w2 := add_inst w1 s1).
  (* build FR for the world with the copy carrying no proxy, then transport *)
  assert (Al : exists w3, let s3 := with_px s1 (Some (length (proxies w1))) in
      allocate w2 j s1 = (w3, Ok s3) /\ FR w3 (F ++ [repeat true (length es)]) o3 /\
      nth_error (insts w3) j = Some s3).
  { set (s0 := with_px s1 None). set (w2' := add_inst w1 s0).
    assert (H2' : FR w2' (F ++ [repeat true (length es)]) o3).
    { constructor; try apply H1.
      - simpl. apply Forall2_app; [apply H1|]. constructor; [|constructor].
        repeat split; auto. apply repeat_length.
      - intros i1 i2 s' s'' p' I1' I2' Pa Pb.
        assert (Q : forall i' s' p', nth_error (insts w1 ++ [s0]) i' = Some s' -> in_px s' = Some p' ->
                    nth_error (insts w1) i' = Some s').
        { intros i' s4 p4 A1 A2. destruct (Nat.lt_ge_cases i' (length (insts w1))).
          - rewrite nth_error_app1 in A1; auto.
          - rewrite nth_error_app2 in A1 by auto.
            destruct (i' - length (insts w1)) as [|[|]]; simpl in A1; try discriminate.
            injection A1 as <-. discriminate. }
        eapply (f_px _ _ _ H1); eauto. }
    assert (I2' : nth_error (insts w2') j = Some s0).
    { simpl. unfold j. rewrite nth_error_app2, Nat.sub_diag; auto. }
    assert (Fj : nth_error (F ++ [repeat true (length es)]) j = Some (repeat true (length es))).
    { unfold j. rewrite (Forall2_length2 _ _ _ (f_insts _ _ _ H1)).
      rewrite nth_error_app2, Nat.sub_diag; auto. }
    destruct (ensure_F _ _ _ _ _ _ H2' I2' Fj) as (w3 & s3 & p3 & px3 & E3 & H3 & I3 & P3 & _).
    unfold ensure in E3. simpl in E3.
    assert (AE : allocate w2 j s1 = allocate w2' j s0).
    { unfold allocate. simpl. rewrite B1. unfold oper_of. simpl.
      rewrite O1, (f_opers _ _ _ H1). simpl. unfold proxy_init.
      change (hget w2') with (hget w1). change (hget w2) with (hget w1).
      rewrite !(f_tbl _ _ _ H1). simpl.
      rewrite !np_mask_get_ok by (rewrite repeat_length; auto). simpl.
      unfold halloc, set_inst, add_proxy, with_px; simpl.
      assert (U : forall (l : list inst) x y z, upd (l ++ [x]) (length l) z = upd (l ++ [y]) (length l) z).
      { clear. intros l x y z. induction l; simpl; [reflexivity|]. f_equal; auto. }
      unfold j. now rewrite (U (insts w1) s1 s0). }
    assert (S3 : s3 = with_px s1 (Some (length (proxies w1)))).
    { unfold allocate in E3. simpl in E3. rewrite B1 in E3. unfold oper_of in E3. simpl in E3.
      rewrite O1, (f_opers _ _ _ H1) in E3. simpl in E3. unfold proxy_init in E3.
      change (hget w2') with (hget w1) in E3. rewrite !(f_tbl _ _ _ H1) in E3. simpl in E3.
      rewrite !np_mask_get_ok in E3 by (rewrite repeat_length; auto). simpl in E3.
      injection E3 as _ <-. reflexivity. }
    subst s3. exists w3. split; [congruence|]. auto. }
  destruct Al as (w3 & A1 & H3 & I3). rewrite A1.
  assert (Fj : nth_error (F ++ [repeat true (length es)]) j = Some (repeat true (length es))).
  { unfold j. rewrite (Forall2_length2 _ _ _ (f_insts _ _ _ H1)).
    rewrite nth_error_app2, Nat.sub_diag; auto. }
  assert (MO : maskval_ok (mkMaskval true [length m] m)) by (unfold maskval_ok; simpl; lia).
  pose proof (set_mask_F _ _ _ _ _ _ _ H3 I3 Fj MO) as SM. cbn [mv_bool mv_shape mv_data] in SM.
  rewrite K in SM |- *.
  destruct (list_eq_dec Nat.eq_dec [length es] [length es]) as [_|]; [|congruence].
  destruct SM as (w4 & S4 & H4 & _).
  rewrite S4. exists w4. split.
  - f_equal. f_equal. unfold j. apply (Forall2_length2 _ _ _ (f_insts _ _ _ H1)).
  - assert (U : forall (l : list (list bool)) x z, upd (l ++ [x]) (length l) z = l ++ [z]).
    { induction l; simpl; intros; f_equal; auto. }
    unfold j in H4. rewrite (Forall2_length2 _ _ _ (f_insts _ _ _ H1)), U in H4. auto.
Qed.

Lemma step_F w F o3 o : FR w F o3 -> fam_op o -> op_ok o ->
  let '(w', x) := step w o in
  let '(F', x') := fam_step ms es bs F o in x = x' /\ FR w' F' o3.
Proof.
  intros H Fo Ok. destruct o; simpl in Fo; try contradiction; simpl; unfold with_inst;
    pose proof (FR_lookup _ _ _ i H) as N;
    destruct (nth_error (insts w) i) as [s|] eqn:I; destruct (nth_error F i) as [mask|] eqn:Fi;
    try contradiction; auto; pose proof N as (O & _ & _ & _).
  - (* Get *)
    unfold get_arr. rewrite (fitted_F _ _ _ _ H O).
    destruct (ensure_F _ _ _ _ _ _ H I Fi) as (w1 & s1 & p & px & E & H1 & I1 & P1 & Q1 & M1 & LL & OO & Pp).
    rewrite E, P1, Q1. fold (px_prox px k).
    destruct (Pp k) as (_ & _ & ->). split; auto. now apply FR_handle.
  - (* GetMask *)
    unfold get_mask. rewrite (fitted_F _ _ _ _ H O).
    destruct (ensure_F _ _ _ _ _ _ H I Fi) as (w1 & s1 & p & px & E & H1 & I1 & P1 & Q1 & M1 & LL & OO & Pp).
    rewrite E, P1, Q1, M1. auto.
  - (* SetMask *)
    pose proof (set_mask_F _ _ _ _ _ _ v H I Fi Ok) as SM. unfold of_unit.
    destruct (mv_bool v); [destruct (list_eq_dec Nat.eq_dec (mv_shape v) [length es])|];
      destruct SM as (w' & -> & H' & _); simpl; auto.
  - (* GetItem *)
    pose proof (getitem_F _ _ _ _ _ _ k H I Fi) as G.
    destruct (fam_item (length es) k); destruct G as (w' & -> & H'); auto.
  - rewrite (fitted_F _ _ _ _ H O). auto.
Qed.

Lemma run_F os : forall w F o3, FR w F o3 -> Forall fam_op os -> Forall op_ok os ->
  snd (run w os) = snd (fam_run ms es bs F os).
Proof.
  induction os as [|o os IH]; intros w F o3 H Hf Ho; simpl; auto.
  inversion Hf; inversion Ho; subst.
  pose proof (step_F _ _ _ o H) as S.
  destruct (step w o) as [w1 x]. destruct (fam_step ms es bs F o) as [F1 x'].
  destruct S as [-> HR]; auto.
  specialize (IH w1 F1 o3 HR). destruct (run w1 os), (fam_run ms es bs F1 os). simpl in *.
  rewrite IH; auto.
Qed.

Lemma init_F n :
  exists o3, FR (fst (run empty_world [New; Fit 0 (FitOk n ms es bs)]))
    [repeat true (length es)] o3.
Proof.
  exists (orig3 1 0 2). constructor; simpl; auto.
  - intros [] []; simpl; congruence.
  - intros []; simpl; unfold next; simpl; lia.
  - intros []; reflexivity.
  - constructor; [|constructor]. repeat split; auto. apply repeat_length.
  - intros [|[|]] [|[|]] s1 s2 p; simpl; try discriminate; auto.
Qed.

Theorem family_refinement n os :
  Forall fam_op os -> Forall op_ok os ->
  snd (run (fst (run empty_world [New; Fit 0 (FitOk n ms es bs)])) os)
  = snd (fam_run ms es bs [repeat true (length es)] os).
Proof. intros. destruct (init_F n) as (o3 & H1). eapply run_F; eauto. Qed.

End P.
