(** Proof that the bitmask machinery refines [Spec_Base.view] (C01). *)
From Coq Require Import List ZArith Lia Bool.
From Verif Require Import Py Model_Base Spec_Base.
Import ListNotations.
Local Open Scope nat_scope.

Section P.
Context {V : Type}.
Implicit Types (w : world V) (a : view V).

(** ** heap lemmas *)
Lemma hget_halloc_lt w x l : l < next w -> hget (halloc w x) l = hget w l.
Proof. intros H; unfold hget, halloc; simpl. rewrite app_nth1; auto. Qed.
Lemma hget_halloc_eq w x : hget (halloc w x) (next w) = x.
Proof. unfold hget, halloc, next; simpl. rewrite app_nth2, Nat.sub_diag; auto. Qed.
Lemma next_halloc w x : next (halloc w x) = S (next w).
Proof. unfold next, halloc; simpl. rewrite app_length; simpl; lia. Qed.
Lemma next_hset w l x : next (hset w l x) = next w.
Proof. unfold next, hset; simpl. apply length_upd. Qed.
Lemma nth_upd_eq {A} (l : list A) i x d : i < length l -> nth i (upd l i x) d = x.
Proof. intros H. erewrite nth_error_nth; [reflexivity|]. now apply nth_error_upd_eq. Qed.
Lemma nth_upd_neq {A} (l : list A) i j x d : i <> j -> nth j (upd l i x) d = nth j l d.
Proof.
  intros H. revert i j H; induction l; intros [|i] [|j] H; simpl; auto; try lia.
Qed.
Lemma hget_hset_eq w l x : l < next w -> hget (hset w l x) l = x.
Proof. intros H; unfold hget, hset; simpl. now apply nth_upd_eq. Qed.
Lemma hget_hset_neq w l l' x : l <> l' -> hget (hset w l x) l' = hget w l'.
Proof. intros H; unfold hget, hset; simpl. now apply nth_upd_neq. Qed.

Definition px_orig (p : proxy) (k : kind) : loc :=
  match k with KModes => px_om p | KEigs => px_oe p | KAmps => px_oa p end.
Definition px_prox (p : proxy) (k : kind) : loc :=
  match k with KModes => px_m p | KEigs => px_e p | KAmps => px_a p end.

Lemma zip3_fields (ms es bs : list V) :
  length ms = length es -> length bs = length es ->
  map (field KModes) (zip3 ms es bs) = ms /\
  map (field KEigs) (zip3 ms es bs) = es /\
  map (field KAmps) (zip3 ms es bs) = bs /\
  length (zip3 ms es bs) = length es.
Proof.
  revert es bs; induction ms as [|m ms IH]; intros [|e es] [|b bs]; simpl;
    try discriminate; auto.
  intros H1 H2. injection H1 as H1. injection H2 as H2.
  destruct (IH es bs H1 H2) as (A & B & C & D).
  simpl. rewrite A, B, C, D. auto.
Qed.

Lemma kind_eq_dec (k k' : kind) : {k = k'} + {k <> k'}.
Proof. decide equality. Qed.

Lemma field_set_eq k (v : V) r : field k (set_field k v r) = v.
Proof. destruct k; reflexivity. Qed.
Lemma field_set_neq k k' (v : V) r : k <> k' -> field k' (set_field k v r) = field k' r.
Proof. destruct k, k'; simpl; congruence. Qed.

Lemma edit_record_same l i k (v : V) :
  i < length l -> map (field k) (edit_record l i k v) = upd (map (field k) l) i v.
Proof.
  intros H. unfold edit_record. destruct (nth_error l i) eqn:E.
  - rewrite map_upd, field_set_eq. auto.
  - apply nth_error_None in E; lia.
Qed.
Lemma edit_record_other l i k k' (v : V) :
  k <> k' -> map (field k') (edit_record l i k v) = map (field k') l.
Proof.
  intros H. unfold edit_record. destruct (nth_error l i) eqn:E; auto.
  eapply map_upd_same; eauto. apply field_set_neq; auto.
Qed.
Lemma edit_record_length l i k (v : V) : length (edit_record l i k v) = length l.
Proof. unfold edit_record. destruct (nth_error l i); auto. apply length_upd. Qed.

(** ** The refinement relation *)

Definition handle_rel w (gen : nat) (live : kind -> loc -> Prop) (orig : kind -> loc)
           (l : loc) (e : kind * nat * nat) : Prop :=
  let '(k, g, len) := e in
  l < next w /\ length (hget w l) = len /\ (forall k', l <> orig k') /\
  g <= gen /\
  (if Nat.eqb g gen then live k l else forall k', ~ live k' l).


(** the proxy exists *)
Record Rpx w a (s : inst) (px : proxy) (p : nat) : Prop := {
  r_insts : insts w = [s];
  r_op : in_op s = 0;
  r_b : in_b s = Some (px_oa px);
  r_opers : opers w = [mkOper (Some (px_om px)) (Some (px_oe px))];
  r_inpx : in_px s = Some p;
  r_proxy : proxy_at w p = Some px;
  r_mask : px_mask px = v_mask a;
  r_lenmask : length (v_mask a) = length (v_full a);
  r_oo : forall k k', px_orig px k = px_orig px k' -> k = k';
  r_pp : forall k k', px_prox px k = px_prox px k' -> k = k';
  r_op' : forall k k', px_orig px k <> px_prox px k';
  r_lt : forall k, px_orig px k < next w /\ px_prox px k < next w;
  r_leno : forall k, length (hget w (px_orig px k)) = length (v_full a);
  r_lenp : forall k, length (hget w (px_prox px k)) = count (v_mask a);
  r_full : forall k, map (field k) (v_full a) =
                     unsel (v_mask a) (hget w (px_orig px k)) (hget w (px_prox px k));
  r_env : Forall2 (handle_rel w (v_gen a) (fun k l => l = px_prox px k) (px_orig px))
                  (handles w) (v_env a) }.

(** fitted, the proxy is not allocated yet *)
Definition orig3 (m e b : loc) (k : kind) : loc :=
  match k with KModes => m | KEigs => e | KAmps => b end.

Record Rno w a (s : inst) (m e b : loc) : Prop := {
  n_insts : insts w = [s];
  n_op : in_op s = 0;
  n_b : in_b s = Some b;
  n_opers : opers w = [mkOper (Some m) (Some e)];
  n_inpx : in_px s = None;
  n_mask : v_mask a = repeat true (length (v_full a));
  n_oo : forall k k', orig3 m e b k = orig3 m e b k' -> k = k';
  n_lt : forall k, orig3 m e b k < next w;
  n_full : forall k, map (field k) (v_full a) = hget w (orig3 m e b k);
  n_env : Forall2 (handle_rel w (v_gen a) (fun k l => False) (orig3 m e b))
                  (handles w) (v_env a) }.

Definition R w a : Prop :=
  (exists s px p, Rpx w a s px p) \/ (exists s m e b, Rno w a s m e b).

Lemma Forall2_impl {A B} (P Q : A -> B -> Prop) l l' :
  (forall x y, P x y -> Q x y) -> Forall2 P l l' -> Forall2 Q l l'.
Proof. intros H; induction 1; constructor; auto. Qed.

Lemma proxy_at_last w (px : proxy) : proxy_at (add_proxy w px) (length (proxies w)) = Some px.
Proof. unfold proxy_at, add_proxy; simpl. rewrite nth_error_app2, Nat.sub_diag; auto. Qed.

Ltac simw := unfold add_handle, set_inst, add_proxy, set_proxy, hget, next in *; simpl in *.

(** allocation turns [Rno] into [Rpx] *)
Lemma allocate_R w a s m e b :
  Rno w a s m e b ->
  exists w' s' px p,
    allocate w 0 s = (w', Ok s') /\ Rpx w' a s' px p.
Proof.
  intros H. pose proof (n_full _ _ _ _ _ _ H) as F. pose proof (n_lt _ _ _ _ _ _ H) as L.
  unfold allocate. rewrite (n_b _ _ _ _ _ _ H).
  unfold oper_of. rewrite (n_op _ _ _ _ _ _ H), (n_opers _ _ _ _ _ _ H). simpl.
  unfold proxy_init.
  assert (Le : length (hget w e) = length (v_full a)).
  { rewrite <- (F KEigs : _ = hget w e). apply map_length. }
  assert (Lm : length (hget w m) = length (v_full a)).
  { rewrite <- (F KModes : _ = hget w m). apply map_length. }
  assert (Lb : length (hget w b) = length (v_full a)).
  { rewrite <- (F KAmps : _ = hget w b). apply map_length. }
  rewrite !np_mask_get_ok by (rewrite repeat_length; congruence). simpl.
  set (N := length (hget w e)).
  assert (Sm : sel (repeat true N) (hget w m) = hget w m).
  { unfold N. rewrite Le, <- Lm. apply sel_repeat_true. }
  assert (Se : sel (repeat true N) (hget w e) = hget w e).
  { unfold N. apply sel_repeat_true. }
  assert (Sb : sel (repeat true N) (hget w b) = hget w b).
  { unfold N. rewrite Le, <- Lb. apply sel_repeat_true. }
  rewrite Sm, Se, Sb.
  set (w1 := halloc w (hget w m)).
  set (w2 := halloc w1 (hget w e)).
  set (w3 := halloc w2 (hget w b)).
  set (px := mkProxy m e b (repeat true N) (next w) (next w1) (next w2)).
  eexists _, _, px, _. split; [reflexivity|].
  assert (N1 : next w1 = S (next w)) by apply next_halloc.
  assert (N2 : next w2 = S (S (next w))) by (unfold w2; rewrite next_halloc; lia).
  assert (N3 : next w3 = S (S (S (next w)))) by (unfold w3; rewrite next_halloc; lia).
  assert (G : forall l, l < next w -> hget w3 l = hget w l).
  { intros l Hl. unfold w3, w2, w1. rewrite !hget_halloc_lt; auto; rewrite ?next_halloc; lia. }
  assert (G1 : hget w3 (next w) = hget w m).
  { unfold w3, w2. rewrite !hget_halloc_lt by (rewrite ?next_halloc; lia). apply hget_halloc_eq. }
  assert (G2 : hget w3 (next w1) = hget w e).
  { unfold w3. rewrite hget_halloc_lt by (rewrite ?next_halloc; lia). apply hget_halloc_eq. }
  assert (G3 : hget w3 (next w2) = hget w b) by apply hget_halloc_eq.
  assert (Lx : forall k, px_orig px k < next w) by (intros k; specialize (L k); destruct k; exact L).
  assert (Gp : forall k, hget w3 (px_prox px k) = hget w (px_orig px k)) by (intros []; simpl; auto).
  assert (Go : forall k, hget w3 (px_orig px k) = hget w (px_orig px k)) by (intros; apply G, Lx).
  assert (Fx : forall k, map (field k) (v_full a) = hget w (px_orig px k))
    by (intros k; specialize (F k); destruct k; exact F).
  assert (Lp : forall k, next w <= px_prox px k < next w3) by (intros []; simpl; lia).
  constructor.
  - simw. rewrite (n_insts _ _ _ _ _ _ H). reflexivity.
  - simpl. apply (n_op _ _ _ _ _ _ H).
  - simpl. apply (n_b _ _ _ _ _ _ H).
  - simpl. apply (n_opers _ _ _ _ _ _ H).
  - reflexivity.
  - apply (proxy_at_last w3).
  - simpl. rewrite (n_mask _ _ _ _ _ _ H). unfold N. now rewrite Le.
  - rewrite (n_mask _ _ _ _ _ _ H). apply repeat_length.
  - intros k k' E. apply (n_oo _ _ _ _ _ _ H). destruct k, k'; exact E.
  - intros k k' E. destruct k, k'; simpl in E; auto; lia.
  - intros k k' E. specialize (Lx k). specialize (Lp k'). lia.
  - intros k. change (px_orig px k < next w3 /\ px_prox px k < next w3).
    specialize (Lx k). specialize (Lp k). lia.
  - intros k. change (length (hget w3 (px_orig px k)) = length (v_full a)).
    rewrite Go, <- Fx. apply map_length.
  - intros k. change (length (hget w3 (px_prox px k)) = count (v_mask a)).
    rewrite Gp, <- Fx, map_length, (n_mask _ _ _ _ _ _ H). now rewrite count_repeat_true.
  - intros k. change (map (field k) (v_full a) =
      unsel (v_mask a) (hget w3 (px_orig px k)) (hget w3 (px_prox px k))).
    rewrite Gp, Go, <- Fx, (n_mask _ _ _ _ _ _ H).
    rewrite unsel_repeat_true; auto using map_length.
  - change (Forall2 (handle_rel w3 (v_gen a) (fun k l => l = px_prox px k) (px_orig px))
      (handles w) (v_env a)).
    eapply Forall2_impl; [|apply (n_env _ _ _ _ _ _ H)].
    intros l [[k g] len] (A & B & C & D & E). repeat split; auto.
    + lia.
    + now rewrite G.
    + destruct (Nat.eqb g (v_gen a)); [tauto|]. intros k' ->. specialize (Lp k'). lia.
Qed.

Lemma fitted_Rpx w a s px p : Rpx w a s px p -> fitted w s = true.
Proof.
  intros H. unfold fitted, oper_of. now rewrite (r_op _ _ _ _ _ H), (r_opers _ _ _ _ _ H).
Qed.
Lemma fitted_Rno w a s m e b : Rno w a s m e b -> fitted w s = true.
Proof.
  intros H. unfold fitted, oper_of. now rewrite (n_op _ _ _ _ _ _ H), (n_opers _ _ _ _ _ _ H).
Qed.

(** whichever case, [ensure] leads to [Rpx] *)
Lemma ensure_R w a :
  R w a -> exists s w' s' px p,
    insts w = [s] /\ fitted w s = true /\
    ensure w 0 s = (w', Ok s') /\ Rpx w' a s' px p.
Proof.
  intros [(s & px & p & H)|(s & m & e & b & H)].
  - exists s, w, s, px, p. repeat split; try apply H.
    + eapply fitted_Rpx; eauto.
    + unfold ensure. now rewrite (r_inpx _ _ _ _ _ H).
  - destruct (allocate_R _ _ _ _ _ _ H) as (w' & s' & px & p & A & B).
    exists s, w', s', px, p. repeat split; try apply B.
    + apply (n_insts _ _ _ _ _ _ H).
    + eapply fitted_Rno; eauto.
    + unfold ensure. now rewrite (n_inpx _ _ _ _ _ _ H).
Qed.

Lemma exposed_eq w a s px p k : Rpx w a s px p -> hget w (px_prox px k) = exposed a k.
Proof.
  intros H. unfold exposed. rewrite <- sel_map, (r_full _ _ _ _ _ H).
  rewrite sel_unsel; auto.
  - rewrite (r_leno _ _ _ _ _ H). apply (r_lenmask _ _ _ _ _ H).
  - apply (r_lenp _ _ _ _ _ H).
Qed.

Definition push w k g len a := mkView (v_full a) (v_mask a) (v_gen a) (v_env a ++ [(k, g, len)] : list (kind * nat * nat)).

Lemma step_get w a k : R w a ->
  let '(w', x) := step w (Get 0 k) in
  let '(a', x') := view_step a (Get 0 k) in x = x' /\ R w' a'.
Proof.
  intros H. destruct (ensure_R _ _ H) as (s & w' & s' & px & p & I & F & E & H').
  simpl. unfold with_inst. rewrite I. simpl. unfold get_arr. rewrite F, E.
  rewrite (r_inpx _ _ _ _ _ H'), (r_proxy _ _ _ _ _ H'). fold (px_prox px k).
  split; [f_equal; eapply exposed_eq; eauto|].
  left. exists s', px, p. destruct H'. constructor; auto.
  simpl. apply Forall2_app; auto. constructor; [|constructor].
  repeat split; simpl; auto.
  - apply r_lt0.
  - apply r_lenp0.
  - rewrite Nat.eqb_refl. reflexivity.
Qed.

Lemma step_getmask w a : R w a ->
  let '(w', x) := step w (GetMask 0) in
  let '(a', x') := view_step a (GetMask 0) in x = x' /\ R w' a'.
Proof.
  intros H. destruct (ensure_R _ _ H) as (s & w' & s' & px & p & I & F & E & H').
  simpl. unfold with_inst. rewrite I. simpl. unfold get_mask. rewrite F, E.
  rewrite (r_inpx _ _ _ _ _ H'), (r_proxy _ _ _ _ _ H').
  rewrite (r_mask _ _ _ _ _ H'). split; auto. left; eauto.
Qed.

Lemma Forall2_nth {A B} (P : A -> B -> Prop) l l' h :
  Forall2 P l l' ->
  match nth_error l h, nth_error l' h with
  | Some x, Some y => P x y | None, None => True | _, _ => False end.
Proof.
  intros H; revert h; induction H; intros [|h]; simpl; auto. apply IHForall2.
Qed.

Lemma handle_hset w gen live orig l0 x l e :
  length x = length (hget w l0) -> l0 < next w ->
  handle_rel w gen live orig l e -> handle_rel (hset w l0 x) gen live orig l e.
Proof.
  destruct e as [[k g] len]. intros Hx L0 (A & B & C & D & E). repeat split; auto.
  - now rewrite next_hset.
  - destruct (Nat.eq_dec l0 l) as [->|N].
    + rewrite hget_hset_eq; congruence.
    + rewrite hget_hset_neq; auto.
Qed.

Lemma step_edit w a h j v : R w a ->
  let '(w', x) := step w (Edit h j v) in
  let '(a', x') := view_step a (Edit h j v) in x = x' /\ R w' a'.
Proof.
  intros [(s & px & p & H)|(s & m & e & b & H)]; simpl.
  - pose proof (Forall2_nth _ _ _ h (r_env _ _ _ _ _ H)) as Hh.
    destruct (nth_error (handles w) h) as [l|]; destruct (nth_error (v_env a) h) as [[[k g] len]|];
      try contradiction.
    2: { split; auto. left; eauto. }
    destruct Hh as (A & B & C & D & E). rewrite B.
    destruct (Nat.ltb_spec j len) as [J|J]; [|split; auto; left; eauto].
    split; auto. left. exists s, px, p.
    set (x := upd (hget w l) j v).
    assert (Hx : length x = length (hget w l)) by apply length_upd.
    destruct (Nat.eqb g (v_gen a)) eqn:G.
    + (* live handle *)
      subst l.
      assert (Len : len = count (v_mask a)) by (rewrite <- B; apply (r_lenp _ _ _ _ _ H)).
      assert (Ho : forall k', hget (hset w (px_prox px k) x) (px_orig px k') = hget w (px_orig px k')).
      { intros k'. apply hget_hset_neq. apply not_eq_sym, (r_op' _ _ _ _ _ H). }
      constructor; simpl; try apply H.
      * rewrite edit_record_length. apply H.
      * intros k'. rewrite next_hset. apply H.
      * intros k'. rewrite Ho, edit_record_length. apply H.
      * intros k'. destruct (kind_eq_dec k k') as [->|N].
        -- rewrite hget_hset_eq; auto. rewrite Hx. apply H.
        -- rewrite hget_hset_neq. apply H. intros Q. apply N, (r_pp _ _ _ _ _ H), Q.
      * intros k'. rewrite Ho. destruct (kind_eq_dec k k') as [->|N].
        -- rewrite hget_hset_eq by auto. unfold x.
           rewrite unsel_upd, <- (r_full _ _ _ _ _ H).
           ++ apply edit_record_same. rewrite <- (r_lenmask _ _ _ _ _ H).
              apply true_pos_lt. lia.
           ++ rewrite (r_leno _ _ _ _ _ H). apply H.
           ++ apply H.
           ++ lia.
        -- rewrite hget_hset_neq by (intros Q; apply N, (r_pp _ _ _ _ _ H), Q).
           rewrite edit_record_other by auto. apply H.
      * eapply Forall2_impl; [|apply (r_env _ _ _ _ _ H)].
        intros l0 e0. apply handle_hset; auto.
    + (* stale handle *)
      assert (Ho : forall k', hget (hset w l x) (px_orig px k') = hget w (px_orig px k')).
      { intros k'. apply hget_hset_neq. apply C. }
      assert (Hp : forall k', hget (hset w l x) (px_prox px k') = hget w (px_prox px k')).
      { intros k'. apply hget_hset_neq. apply E. }
      constructor; simpl; try apply H.
      * intros k'. rewrite next_hset. apply H.
      * intros k'. rewrite Ho. apply H.
      * intros k'. rewrite Hp. apply H.
      * intros k'. rewrite Ho, Hp. apply H.
      * eapply Forall2_impl; [|apply (r_env _ _ _ _ _ H)].
        intros l0 e0. apply handle_hset; auto.
  - pose proof (Forall2_nth _ _ _ h (n_env _ _ _ _ _ _ H)) as Hh.
    destruct (nth_error (handles w) h) as [l|]; destruct (nth_error (v_env a) h) as [[[k g] len]|];
      try contradiction.
    2: { split; auto. right; eauto 6. }
    destruct Hh as (A & B & C & D & E). rewrite B.
    destruct (Nat.ltb_spec j len) as [J|J]; [|split; auto; right; eauto 6].
    split; auto. right. exists s, m, e, b.
    set (x := upd (hget w l) j v).
    assert (Hx : length x = length (hget w l)) by apply length_upd.
    destruct (Nat.eqb g (v_gen a)) eqn:G; [contradiction|].
    assert (Ho : forall k', hget (hset w l x) (orig3 m e b k') = hget w (orig3 m e b k')).
    { intros k'. apply hget_hset_neq. apply C. }
    constructor; simpl; try apply H.
    + intros k'. rewrite next_hset. apply H.
    + intros k'. rewrite Ho. apply H.
    + eapply Forall2_impl; [|apply (n_env _ _ _ _ _ _ H)].
      intros l0 e0. apply handle_hset; auto.
Qed.

Lemma change_mask_R w a s px p value :
  Rpx w a s px p -> length value = length (v_full a) ->
  exists w' px', change_mask w p value = (w', Ok tt) /\
    Rpx w' (mkView (v_full a) value (S (v_gen a)) (v_env a)) s px' p.
Proof.
  intros H Lv. unfold change_mask. rewrite (r_proxy _ _ _ _ _ H).
  pose proof (r_leno _ _ _ _ _ H) as LO. pose proof (r_lenp _ _ _ _ _ H) as LP.
  pose proof (r_lt _ _ _ _ _ H) as LT. pose proof (r_full _ _ _ _ _ H) as F.
  pose proof (r_lenmask _ _ _ _ _ H) as LM.
  rewrite (r_mask _ _ _ _ _ H).
  rewrite !np_mask_set_ok; try (rewrite LM; symmetry);
    try (apply (LO KModes)); try (apply (LO KEigs)); try (apply (LO KAmps));
    try (symmetry; apply (LP KModes)); try (symmetry; apply (LP KEigs)); try (symmetry; apply (LP KAmps));
    try (apply (LP KModes)); try (apply (LP KEigs)); try (apply (LP KAmps)).
  simpl.
  pose proof (F KModes) as Fm; pose proof (F KEigs) as Fe; pose proof (F KAmps) as Fa. simpl in Fm, Fe, Fa.
  rewrite <- Fm, <- Fe, <- Fa.
  set (w1 := hset (hset (hset w (px_om px) _) (px_oe px) _) (px_oa px) _).
  assert (D : forall k k', px_orig px k = px_orig px k' -> k = k') by apply H.
  assert (Lm : px_om px < next w) by apply (LT KModes).
  assert (Le : px_oe px < next w) by apply (LT KEigs).
  assert (La : px_oa px < next w) by apply (LT KAmps).
  assert (Dme : px_om px <> px_oe px) by (intros Q; discriminate (D KModes KEigs Q)).
  assert (Dma : px_om px <> px_oa px) by (intros Q; discriminate (D KModes KAmps Q)).
  assert (Dea : px_oe px <> px_oa px) by (intros Q; discriminate (D KEigs KAmps Q)).
  assert (N1 : next w1 = next w) by (unfold w1; now rewrite !next_hset).
  assert (Ho : forall k, hget w1 (px_orig px k) = map (field k) (v_full a)).
  { intros []; unfold w1; simpl.
    - rewrite !hget_hset_neq by auto. rewrite hget_hset_eq; auto.
    - rewrite hget_hset_neq by auto. rewrite hget_hset_eq; auto. now rewrite next_hset.
    - rewrite hget_hset_eq; auto. now rewrite !next_hset. }
  assert (Hx : forall l, (forall k, l <> px_orig px k) -> hget w1 l = hget w l).
  { intros l Q. pose proof (Q KModes). pose proof (Q KEigs). pose proof (Q KAmps). simpl in *.
    unfold w1. now rewrite !hget_hset_neq by auto. }
  pose proof (Ho KModes) as Hm; pose proof (Ho KEigs) as He; pose proof (Ho KAmps) as Ha; simpl in Hm, He, Ha.
  rewrite Hm, He, Ha.
  rewrite !np_mask_get_ok by (rewrite map_length; auto). simpl.
  set (w2 := halloc w1 _). set (w3 := halloc w2 _). set (w4 := halloc w3 _).
  set (px' := mkProxy _ _ _ _ _ _ _).
  assert (N2 : next w2 = S (next w)) by (unfold w2; rewrite next_halloc; lia).
  assert (N3 : next w3 = S (S (next w))) by (unfold w3; rewrite next_halloc; lia).
  assert (N4 : next w4 = S (S (S (next w)))) by (unfold w4; rewrite next_halloc; lia).
  exists (set_proxy w4 p px'), px'. split; auto.
  assert (G : forall l, l < next w -> hget w4 l = hget w1 l).
  { intros l Hl. unfold w4, w3, w2. rewrite !hget_halloc_lt; auto; rewrite ?next_halloc; lia. }
  assert (Gp : forall k, hget w4 (px_prox px' k) = sel value (map (field k) (v_full a))).
  { intros []; simpl.
    - unfold w4, w3. rewrite !hget_halloc_lt by (rewrite ?next_halloc; lia). apply hget_halloc_eq.
    - unfold w4. rewrite !hget_halloc_lt by (rewrite ?next_halloc; lia). apply hget_halloc_eq.
    - apply hget_halloc_eq. }
  assert (Og : forall k, px_orig px' k = px_orig px k) by (intros []; reflexivity).
  assert (Go : forall k, hget w4 (px_orig px' k) = map (field k) (v_full a)).
  { intros k. rewrite Og, G by apply LT. apply Ho. }
  assert (Lp : forall k, next w <= px_prox px' k < next w4) by (intros []; simpl; lia).
  constructor; cbn [v_full v_mask v_gen v_env]; auto; try apply H.
  - unfold proxy_at, set_proxy; simpl. apply nth_error_upd_eq.
    apply nth_error_Some. pose proof (r_proxy _ _ _ _ _ H) as Q. unfold proxy_at in Q. congruence.
  - intros k k' Q. destruct k, k'; simpl in Q; auto; lia.
  - intros k k' Q. rewrite Og in Q. specialize (Lp k'). specialize (LT k). lia.
  - intros k. change (px_orig px' k < next w4 /\ px_prox px' k < next w4).
    rewrite Og. specialize (Lp k). specialize (LT k). lia.
  - intros k. change (length (hget w4 (px_orig px' k)) = length (v_full a)).
    rewrite Go. apply map_length.
  - intros k. change (length (hget w4 (px_prox px' k)) = count value).
    rewrite Gp. apply length_sel. rewrite map_length; auto.
  - intros k. change (map (field k) (v_full a) =
      unsel value (hget w4 (px_orig px' k)) (hget w4 (px_prox px' k))).
    rewrite Go, Gp, unsel_sel; auto. rewrite map_length; auto.
  - change (Forall2 (handle_rel w4 (S (v_gen a)) (fun k l => l = px_prox px' k) (px_orig px'))
      (handles w) (v_env a)).
    eapply Forall2_impl; [|apply (r_env _ _ _ _ _ H)].
    intros l [[k g] len] (A & B & C & E1 & E). repeat split.
    + lia.
    + rewrite G, Hx; auto.
    + intros k'. rewrite Og. auto.
    + lia.
    + destruct (Nat.eqb_spec g (S (v_gen a))); [lia|].
      intros k' ->. specialize (Lp k'). lia.
Qed.

Lemma step_setmask w a v : R w a -> maskval_ok v ->
  let '(w', x) := step w (SetMask 0 v) in
  let '(a', x') := view_step a (SetMask 0 v) in x = x' /\ R w' a'.
Proof.
  intros H Hv. destruct (ensure_R _ _ H) as (s & w' & s' & px & p & I & F & E & H').
  simpl. unfold with_inst. rewrite I. simpl. unfold of_unit, set_mask, get_mask.
  rewrite F. destruct (mv_bool v); [|split; auto].
  rewrite E, (r_inpx _ _ _ _ _ H'), (r_proxy _ _ _ _ _ H'), (r_mask _ _ _ _ _ H').
  rewrite (r_lenmask _ _ _ _ _ H').
  destruct (list_eq_dec Nat.eq_dec (mv_shape v) [length (v_full a)]) as [Q|Q].
  - rewrite (r_insts _ _ _ _ _ H'). simpl. rewrite (r_inpx _ _ _ _ _ H').
    destruct (change_mask_R _ _ _ _ _ (mv_data v) H') as (w2 & px2 & C & H2).
    { unfold maskval_ok in Hv. rewrite Q in Hv. simpl in Hv. lia. }
    rewrite C. simpl. split; auto. left. eauto.
  - simpl. split; auto. left; eauto.
Qed.

Definition is_fit_base w : Prop := exists s o, insts w = [s] /\ opers w = [o] /\ in_op s = 0.

(** a successful fit of instance 0 establishes the relation, whatever the state *)
Lemma fit_R w s o n ms es bs gen env :
  insts w = [s] -> opers w = [o] -> in_op s = 0 ->
  length ms = length es -> length bs = length es ->
  Forall2 (fun l (e : kind * nat * nat) => let '(k, g, len) := e in
             l < next w /\ length (hget w l) = len /\ g < gen) (handles w) env ->
  exists w', fit w 0 s (FitOk n ms es bs) = (w', Ok tt) /\
    R w' (mkView (zip3 ms es bs) (repeat true (length es)) gen env).
Proof.
  intros I O Op L1 L2 He. simpl.
  eexists. split; [reflexivity|]. right.
  destruct (zip3_fields ms es bs L1 L2) as (Zm & Ze & Za & Zl).
  set (s1 := with_snap (reset s) n).
  set (w0 := set_inst w 0 s1).
  set (w1 := fit_eigs w0 s1 es).
  set (w2 := fit_modes w1 s1 ms).
  match goal with |- exists _ _ _ _, Rno (set_inst (halloc ?w _) _ _) _ _ _ _ _ => set (w3 := w) end.
  assert (H0 : heap w0 = heap w) by reflexivity.
  assert (H1 : heap w1 = heap w ++ [es]) by reflexivity.
  assert (H2 : heap w2 = (heap w ++ [es]) ++ [ms]) by reflexivity.
  assert (H3 : heap w3 = (heap w ++ [es]) ++ [ms]) by reflexivity.
  assert (O1 : opers w1 = [mkOper (o_modes (oper_of w0 s1)) (Some (next w))]).
  { unfold w1, fit_eigs. simpl. rewrite O, Op. reflexivity. }
  assert (O2 : opers w2 = [mkOper (Some (next w1)) (Some (next w))]).
  { assert (E : opers w2 = upd (opers w1) (in_op s1)
        (mkOper (Some (next w1)) (o_eigs (oper_of w1 s1)))) by reflexivity.
    rewrite E. unfold oper_of. change (in_op s1) with (in_op s). now rewrite Op, O1. }
  assert (N1 : next w1 = S (next w)) by (unfold next; rewrite H1, app_length; simpl; lia).
  assert (N3 : next w3 = S (S (next w))) by (unfold next; rewrite H3, !app_length; simpl; lia).
  eexists _, (next w1), (next w), (next w3).
  set (wf := set_inst (halloc w3 bs) 0 _).
  assert (Hf : heap wf = ((heap w ++ [es]) ++ [ms]) ++ [bs]) by reflexivity.
  assert (Nf : next wf = S (S (S (next w)))) by (unfold next; rewrite Hf, !app_length; simpl; lia).
  assert (Ge : hget wf (next w) = es).
  { unfold hget. rewrite Hf. rewrite <- !app_assoc. unfold next. rewrite app_nth2, Nat.sub_diag; auto. }
  assert (Gm : hget wf (next w1) = ms).
  { unfold hget. rewrite Hf, N1. unfold next.
    rewrite app_nth1 by (rewrite !app_length; simpl; lia).
    rewrite app_nth2 by (rewrite app_length; simpl; lia).
    rewrite app_length; cbn [length].
    match goal with |- nth ?n _ _ = _ => replace n with 0 by lia end. reflexivity. }
  assert (Gb : hget wf (next w3) = bs).
  { unfold hget. rewrite Hf, N3. unfold next.
    rewrite app_nth2 by (rewrite !app_length; simpl; lia).
    rewrite !app_length; cbn [length].
    match goal with |- nth ?n _ _ = _ => replace n with 0 by lia end. reflexivity. }
  assert (G : forall l, l < next w -> hget wf l = hget w l).
  { intros l Hl. unfold hget. rewrite Hf, <- !app_assoc, app_nth1; auto. }
  constructor; cbn [v_full v_mask v_gen v_env].
  - unfold wf. simpl. rewrite I. reflexivity.
  - exact Op.
  - reflexivity.
  - exact O2.
  - reflexivity.
  - now rewrite Zl.
  - intros k k' Q. destruct k, k'; simpl in Q; auto; lia.
  - intros []; simpl; change (next _) with (next wf) at 2; lia.
  - intros []; simpl; change (hget _) with (hget wf); congruence.
  - eapply Forall2_impl; [|exact He].
    intros l [[k g] len] (A & B & C). change (handle_rel wf gen (fun _ _ => False)
      (orig3 (next w1) (next w) (next w3)) l (k, g, len)).
    repeat split.
    + lia.
    + now rewrite G.
    + intros []; simpl; lia.
    + lia.
    + destruct (Nat.eqb_spec g gen); [lia|]. auto.
Qed.

Lemma R_base w a : R w a ->
  exists s o, insts w = [s] /\ opers w = [o] /\ in_op s = 0 /\
  Forall2 (fun l (e : kind * nat * nat) => let '(k, g, len) := e in
             l < next w /\ length (hget w l) = len /\ g < S (v_gen a)) (handles w) (v_env a).
Proof.
  intros [(s & px & p & H)|(s & m & e & b & H)]; destruct H; do 2 eexists;
    repeat split; eauto;
    (eapply Forall2_impl; [|eassumption]);
    intros l [[k g] len] (A & B & C & D & E); repeat split; auto; lia.
Qed.

Lemma step_fit w a n ms es bs : R w a ->
  length ms = length es -> length bs = length es ->
  let o := Fit 0 (FitOk n ms es bs) in
  let '(w', x) := step w o in
  let '(a', x') := view_step a o in x = x' /\ R w' a'.
Proof.
  intros H L1 L2. destruct (R_base _ _ H) as (s & o & I & O & Op & He).
  destruct (fit_R w s o n ms es bs _ _ I O Op L1 L2 He) as (w' & Ef & HR).
  cbv zeta. unfold step, with_inst. rewrite I. simpl nth_error. cbv beta iota.
  rewrite Ef. simpl. auto.
Qed.

Lemma step_R w a o : R w a -> view_op o -> op_ok o ->
  let '(w', x) := step w o in
  let '(a', x') := view_step a o in x = x' /\ R w' a'.
Proof.
  intros H Vo Ok. destruct o; simpl in Vo; try contradiction.
  - destruct i; [|contradiction]. destruct f; try contradiction.
    destruct Ok. now apply step_fit.
  - destruct i; [|contradiction]. now apply step_get.
  - now apply step_edit.
  - destruct i; [|contradiction]. now apply step_getmask.
  - destruct i; [|contradiction]. now apply step_setmask.
  - destruct i; [|contradiction]. simpl. unfold with_inst.
    destruct (ensure_R _ _ H) as (s & w' & s' & px & p & I & F & E & H').
    rewrite I. simpl. rewrite F. auto.
Qed.

Lemma run_R os : forall w a, R w a -> Forall view_op os -> Forall op_ok os ->
  snd (run w os) = snd (view_run a os) /\ R (fst (run w os)) (fst (view_run a os)).
Proof.
  induction os as [|o os IH]; intros w a H Hv Ho; simpl; auto.
  inversion Hv; inversion Ho; subst.
  pose proof (step_R _ _ o H) as S.
  destruct (step w o) as [w1 x]. destruct (view_step a o) as [a1 x'].
  destruct S as [-> HR]; auto.
  specialize (IH w1 a1 HR). destruct (run w1 os), (view_run a1 os). simpl in *.
  destruct IH as [-> ?]; auto.
Qed.

Lemma init_R n ms es bs :
  length ms = length es -> length bs = length es ->
  R (fst (run empty_world [New; Fit 0 (FitOk n ms es bs)])) (view_init ms es bs).
Proof.
  intros L1 L2. 
  destruct (fit_R (new_inst (@empty_world V)) (mkInst 0 None None None None None) (mkOper None None)
              n ms es bs 0 [] eq_refl eq_refl eq_refl L1 L2) as (w' & E & H).
  { constructor. }
  injection E as <-. exact H.
Qed.

Theorem view_refinement n ms es bs (os : list (op V)) :
  length ms = length es -> length bs = length es ->
  Forall view_op os -> Forall op_ok os ->
  snd (run (fst (run empty_world [New; Fit 0 (FitOk n ms es bs)])) os)
  = snd (view_run (view_init ms es bs) os).
Proof. intros. apply run_R; auto. now apply init_R. Qed.

End P.
