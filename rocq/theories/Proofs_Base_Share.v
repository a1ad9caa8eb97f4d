(** Proofs for C04 (sharing), C05 (time dictionaries), C18 (failed fits). *)
From Coq Require Import List ZArith Lia Bool String QArith.
From Verif Require Import Py Model_Base Spec_Base Proofs_Base_View Proofs_Base_Family Proofs_Base_Inv.
Import ListNotations.
Local Open Scope nat_scope.
Local Notation length := List.length.

Section P.
Context {V : Type}.
Implicit Types (w : world V).

Lemma reach_wf w : reach w -> wf w.
Proof. induction 1; [apply wf_empty|]. now apply wf_step. Qed.

(** ** Ownership of the arrays *)
Inductive tag := TF (o : nat) | TP (p : nat).

Record owned w (T : loc -> tag) : Prop := {
  g_op : forall o x l, nth_error (opers w) o = Some x ->
     o_modes x = Some l \/ o_eigs x = Some l -> T l = TF o;
  g_b : forall i s l, nth_error (insts w) i = Some s -> in_b s = Some l -> T l = TF (in_op s);
  g_px : forall i s p px k, nth_error (insts w) i = Some s -> in_px s = Some p ->
     proxy_at w p = Some px -> T (px_prox px k) = TP p /\ T (px_orig px k) = TF (in_op s);
  g_inj : forall i j s t p, nth_error (insts w) i = Some s -> nth_error (insts w) j = Some t ->
     in_px s = Some p -> in_px t = Some p -> i = j;
  g_none : forall i j s t, nth_error (insts w) i = Some s -> nth_error (insts w) j = Some t ->
     in_px s = None -> in_op s = in_op t -> i = j }.

Definition tag3 (n : nat) (t : tag) (T : loc -> tag) : loc -> tag :=
  fun l => if (n <=? l) && (l <? 3 + n) then t else T l.
Lemma tag3_old n t T l : l < n -> tag3 n t T l = T l.
Proof. intros H. unfold tag3. destruct (Nat.leb_spec n l); auto. lia. Qed.
Lemma tag3_new n t T k : k < 3 -> tag3 n t T (k + n) = t.
Proof.
  intros H. unfold tag3. destruct (Nat.leb_spec n (k + n)); [|lia].
  destruct (Nat.ltb_spec (k + n) (3 + n)); auto. lia.
Qed.
Lemma fresh_px_tag w m e b mask t T k :
  tag3 (next w) t T (px_prox (fresh_px w m e b mask) k) = t.
Proof.
  destruct k; [apply (tag3_new _ _ _ 0)|apply (tag3_new _ _ _ 1)|apply (tag3_new _ _ _ 2)]; lia.
Qed.

(** facts about locations of a well-formed world *)
Lemma loc_op w o x l : wf w -> nth_error (opers w) o = Some x ->
  o_modes x = Some l \/ o_eigs x = Some l -> l < next w.
Proof.
  intros W O H. apply nth_error_In in O. destruct (wf_opers _ W _ O) as [A B].
  destruct H as [E|E]; rewrite E in *; auto.
Qed.
Lemma loc_b w i s l : wf w -> nth_error (insts w) i = Some s -> in_b s = Some l -> l < next w.
Proof. intros W I E. apply nth_error_wf in I as (_ & B & _); auto. now rewrite E in B. Qed.
Lemma loc_px w p px k : wf w -> proxy_at w p = Some px ->
  px_prox px k < next w /\ px_orig px k < next w.
Proof. intros W P. destruct (wf_px _ W px (nth_error_In _ _ P) k) as (A & B & _). auto. Qed.
Lemma px_lt w i s p : wf w -> nth_error (insts w) i = Some s -> in_px s = Some p ->
  p < length (proxies w).
Proof. intros W I E. apply nth_error_wf in I as (_ & _ & B & _); auto. now rewrite E in B. Qed.

Lemma owned_tag3 w T t : wf w -> owned w T -> owned w (tag3 (next w) t T).
Proof.
  intros W [A B C D E]. constructor; auto.
  - intros. rewrite tag3_old; eauto using loc_op.
  - intros. rewrite tag3_old; eauto using loc_b.
  - intros i s p px k I P Q. destruct (loc_px _ _ _ k W Q).
    rewrite !tag3_old; eauto.
Qed.

(** the parts of the world ownership depends on *)
Lemma owned_ext w w' T : opers w' = opers w -> insts w' = insts w -> proxies w' = proxies w ->
  owned w T -> owned w' T.
Proof.
  intros O I P [A B C D E]. constructor; unfold proxy_at in *; rewrite ?O, ?I, ?P; auto.
Qed.

(** touching an instance *)
Lemma owned_touch w i s : wf w -> nth_error (insts w) i = Some s ->
  (exists T, owned w T) -> exists T, owned (touch w i s) T.
Proof.
  intros W I (T & H).
  destruct (touch_cases w i s I) as [->|(N & _ & m & e & b & A & ->)]; eauto.
  exists (tag3 (next w) (TP (length (proxies w))) T).
  assert (H' := owned_tag3 w T (TP (length (proxies w))) W H).
  destruct H' as [A1 B1 C1 D1 E1].
  set (s' := with_px s (Some (length (proxies w)))).
  destruct (alloc_ready_lt w s m e b W (nth_error_wf _ _ _ W I) A) as (Lm & Le & Lb).
  pose proof A as (Ab & Am & Ae & _).
  assert (Oo : nth_error (opers w) (in_op s) = Some (oper_of w s)).
  { unfold oper_of. apply nth_error_nth'. apply (nth_error_wf _ _ _ W I). }
  constructor.
  - exact A1.
  - intros j t l J Bj. simpl in J. apply nth_upd_lookup in J as [[-> ->]|[Nj J]]; [exact (B1 _ _ _ I Bj)|eauto].
  - intros j t p px k J Pj Q. simpl in J. unfold proxy_at in Q; simpl in Q.
    apply nth_upd_lookup in J as [[-> ->]|[Nj J]].
    + simpl in Pj. injection Pj as <-. rewrite nth_error_app2, Nat.sub_diag in Q by auto.
      simpl in Q. injection Q as <-. split; [apply fresh_px_tag|].
      destruct k; simpl; eauto.
    + rewrite nth_error_app1 in Q by (eapply px_lt; eauto). eapply C1; eauto.
  - intros j1 j2 t1 t2 p J1 J2 P1 P2. simpl in J1, J2.
    apply nth_upd_lookup in J1 as [[-> ->]|[N1 J1]]; apply nth_upd_lookup in J2 as [[-> ->]|[N2 J2]]; auto.
    + simpl in P1. injection P1 as <-. pose proof (px_lt _ _ _ _ W J2 P2). lia.
    + simpl in P2. injection P2 as <-. pose proof (px_lt _ _ _ _ W J1 P1). lia.
    + eauto.
  - intros j1 j2 t1 t2 J1 J2 P1 P2. simpl in J1, J2.
    apply nth_upd_lookup in J1 as [[-> ->]|[N1 J1]]; [discriminate|].
    apply nth_upd_lookup in J2 as [[-> ->]|[N2 J2]]; [|eauto].
    eapply E1; [exact J1|exact I|auto|]. exact P2.
Qed.

Lemma owned_mask w i s p px value : wf w -> nth_error (insts w) i = Some s -> in_px s = Some p ->
  proxy_at w p = Some px ->
  (exists T, owned w T) -> exists T, owned (mask_world w p px value) T.
Proof.
  intros W I P Q (T & H). exists (tag3 (next w) (TP p) T).
  assert (H' := owned_tag3 w T (TP p) W H). destruct H' as [A B C D E].
  constructor; auto.
  intros j t p' px' k J Pj Qj. unfold proxy_at, mask_world in Qj; simpl in Qj.
  apply nth_upd_lookup in Qj as [[-> ->]|[N Qj]]; [|eapply C; eauto].
  assert (j = i) by (eapply D; eauto). subst j.
  assert (t = s) by (simpl in J; congruence). subst t.
  split.
  - rewrite <- (next_flush w px). apply fresh_px_tag.
  - destruct (C i s p px k I P Q) as [_ R]. destruct k; exact R.
Qed.

Lemma owned_set_mask w i s v : wf w -> maskval_ok v -> nth_error (insts w) i = Some s ->
  (exists T, owned w T) -> exists T, owned (fst (set_mask w i s v)) T.
Proof.
  intros W Mv I H. pose proof (set_mask_spec w i s v W Mv I) as S.
  destruct (fitted w s && mv_bool v); [|rewrite S; auto].
  destruct (peek_mask w s) as [m|]; [|rewrite S; now apply owned_touch].
  destruct (list_eq_dec _ _ _); [|rewrite S; now apply owned_touch].
  destruct S as (s1 & p & px & I1 & P1 & Q1 & M1 & ->). cbn [fst].
  eapply owned_mask; eauto using wf_touch, owned_touch.
Qed.

Lemma insts_alloc_copy w s m e b :
  insts (alloc_world (add_inst w s) (length (insts w)) s m e b)
  = insts w ++ [with_px s (Some (length (proxies w)))].
Proof.
  simpl. generalize (with_px s (Some (length (proxies w)))). intros s'.
  induction (insts w); simpl; f_equal; auto.
Qed.

Lemma owned_copy w i s m e b p : wf w -> nth_error (insts w) i = Some s -> in_px s = Some p ->
  alloc_ready w s m e b -> (exists T, owned w T) ->
  exists T, owned (alloc_world (add_inst w s) (length (insts w)) s m e b) T.
Proof.
  intros W I P A (T & H). exists (tag3 (next w) (TP (length (proxies w))) T).
  assert (H' := owned_tag3 w T (TP (length (proxies w))) W H).
  destruct H' as [A1 B1 C1 D1 E1].
  set (w' := alloc_world _ _ _ _ _ _). set (s' := with_px s (Some (length (proxies w)))).
  assert (In' : insts w' = insts w ++ [s']) by apply insts_alloc_copy.
  pose proof A as (Ab & Am & Ae & _).
  assert (Oo : nth_error (opers w) (in_op s) = Some (oper_of w s)).
  { unfold oper_of. apply nth_error_nth'. apply (nth_error_wf _ _ _ W I). }
  assert (Lk : forall j t, nth_error (insts w') j = Some t ->
     (nth_error (insts w) j = Some t) \/ (j = length (insts w) /\ t = s')).
  { intros j t J. rewrite In' in J. destruct (Nat.lt_ge_cases j (length (insts w))) as [L|L].
    - rewrite nth_error_app1 in J; auto.
    - rewrite nth_error_app2 in J by auto. right.
      destruct (j - length (insts w)) as [|[|]] eqn:Ej; simpl in J; try discriminate.
      injection J as <-. split; auto; lia. }
  assert (Lt : forall j t, nth_error (insts w) j = Some t -> j < length (insts w)).
  { intros j t J. apply nth_error_Some. congruence. }
  constructor.
  - exact A1.
  - intros j t l J Bj. apply Lk in J as [J|[-> ->]]; [eauto|]. exact (B1 _ _ _ I Bj).
  - intros j t q px k J Pj Q. unfold proxy_at in Q; simpl in Q.
    apply Lk in J as [J|[-> ->]].
    + rewrite nth_error_app1 in Q by (eapply px_lt; eauto). eapply C1; eauto.
    + simpl in Pj. injection Pj as <-. rewrite nth_error_app2, Nat.sub_diag in Q by auto.
      simpl in Q. injection Q as <-. split; [apply (fresh_px_tag (add_inst w s))|].
      change (in_op s') with (in_op s).
      destruct k; simpl; eauto.
  - intros j1 j2 t1 t2 q J1 J2 P1 P2.
    apply Lk in J1 as [J1|[-> ->]]; apply Lk in J2 as [J2|[-> ->]]; auto; [eauto| |].
    + simpl in P2. injection P2 as <-. pose proof (px_lt _ _ _ _ W J1 P1). lia.
    + simpl in P1. injection P1 as <-. pose proof (px_lt _ _ _ _ W J2 P2). lia.
  - intros j1 j2 t1 t2 J1 J2 P1 P2.
    apply Lk in J1 as [J1|[-> ->]]; [|discriminate].
    apply Lk in J2 as [J2|[-> ->]]; [eauto|].
    assert (j1 = i) by (eapply E1; eauto). subst j1. congruence.
Qed.

Lemma getitem_owned w i s k : wf w -> nth_error (insts w) i = Some s ->
  (exists T, owned w T) -> exists T, owned (fst (getitem w i s k)) T.
Proof.
  intros W I H. pose proof (getitem_spec w i s k W I) as G.
  destruct (match check_key k with Ok _ => _ | Err x => _ end) as [mask|x] eqn:K.
  - destruct (check_key k); [|discriminate]. destruct (peek_mask w s) as [m0|] eqn:Pm; [|discriminate].
    destruct (touch_proxy w i s m0 W I Pm) as (s1' & p & px0 & I1' & P1 & Q1 & M1).
    destruct G as (s1 & I1 & [(x & ->)|(m & e & b & A & L & P & ->)]); [now apply owned_touch|].
    rewrite I1 in I1'. injection I1' as <-. cbn [fst].
    pose proof (wf_touch w i s W I) as W1.
    eapply owned_mask.
    + apply wf_alloc; [|exact (nth_error_wf _ _ _ W1 I1)|exact A].
      apply wf_add_inst; auto. exact (nth_error_wf _ _ _ W1 I1).
    + rewrite insts_alloc_copy. rewrite nth_error_app2, Nat.sub_diag by auto. reflexivity.
    + reflexivity.
    + exact P.
    + eapply owned_copy; eauto using owned_touch.
  - destruct G as [-> | ->]; auto. now apply owned_touch.
Qed.

(** fitting an instance that shares its operator with nobody *)
Lemma fit_shape w i s f : nth_error (insts w) i = Some s ->
  exists s' x, insts (fst (fit w i s f)) = upd (insts w) i s' /\
    opers (fst (fit w i s f)) = upd (opers w) (in_op s) x /\
    in_op s' = in_op s /\ in_px s' = None /\
    proxies (fst (fit w i s f)) = proxies w /\
    (forall l, l < next w -> hget (fst (fit w i s f)) l = hget w l) /\
    (forall l, in_b s' = Some l -> next w <= l) /\
    (forall l, o_modes x = Some l -> next w <= l \/ o_modes (oper_of w s) = Some l) /\
    (forall l, o_eigs x = Some l -> next w <= l \/ o_eigs (oper_of w s) = Some l) /\
    handles (fst (fit w i s f)) = handles w /\
    (forall d, d < length (dicts w) -> dict_at (fst (fit w i s f)) d = dict_at w d).
Proof.
  intros I.
  assert (U : forall {A} (l : list A) n x y, upd (upd l n x) n y = upd l n y).
  { induction l; intros [|n] x y; simpl; f_equal; auto. }
  assert (US : forall {A} (l : list A) n d, n < length l -> upd l n (nth n l d) = l).
  { induction l; intros [|n] d H; simpl in *; auto; f_equal; auto; try lia. apply IHl; lia. }
  assert (UO : forall {A} (l : list A) n x, length l <= n -> upd l n x = l).
  { induction l; intros [|n] x H; simpl in *; auto; try lia; f_equal; auto. apply IHl; lia. }
  assert (OU : forall o, nth (in_op s) (upd (opers w) (in_op s) o) (mkOper None None) = o \/
                         length (opers w) <= in_op s).
  { intros o. destruct (Nat.lt_ge_cases (in_op s) (length (opers w))); auto.
    left. now apply nth_upd_eq. }
  unfold fit. destruct f; cbn [fst].
  - unfold init_time, fit_modes, fit_eigs, oper_of. cbn.
    eexists _, _. rewrite !U. split; [reflexivity|]. split; [reflexivity|].
    repeat split; auto.
    + intros l H. unfold hget, next in *; simpl. rewrite !app_nth1; auto; rewrite ?app_length; simpl; lia.
    + intros l H. injection H as <-. unfold next; simpl. rewrite !app_length; simpl; lia.
    + intros l H. cbn in H. injection H as <-. left. unfold next; simpl. rewrite !app_length; simpl; lia.
    + intros l H. cbn in H.
      match type of H with o_eigs (nth _ (upd _ _ ?o) _) = _ => destruct (OU o) as [Q|Q] end.
      * rewrite Q in H. cbn in H. injection H as <-. left. unfold next; simpl. lia.
      * rewrite UO in H by auto. right. exact H.
    + intros d H. unfold dict_at; simpl. rewrite !app_nth1; auto; rewrite ?app_length; simpl; lia.
  - exists (reset s), (oper_of w s). cbn. repeat split; auto; try discriminate.
    unfold oper_of. destruct (Nat.lt_ge_cases (in_op s) (length (opers w))); [now rewrite US|now rewrite UO].
  - exists (with_snap (reset s) n), (oper_of w s). cbn. repeat split; auto; try discriminate.
    unfold oper_of. destruct (Nat.lt_ge_cases (in_op s) (length (opers w))); [now rewrite US|now rewrite UO].
  - unfold fit_eigs, oper_of. cbn. eexists _, _. split; [reflexivity|]. split; [reflexivity|].
    repeat split; auto; try discriminate.
    + intros l H. unfold hget, next in *; simpl. rewrite !app_nth1; auto.
    + intros l H. cbn in H. injection H as <-. left. unfold next; simpl. lia.
  - unfold init_time, fit_modes, fit_eigs, oper_of. cbn.
    eexists _, _. rewrite !U. split; [reflexivity|]. split; [reflexivity|].
    repeat split; auto; try discriminate.
    + intros l H. unfold hget, next in *; simpl. rewrite !app_nth1; auto; rewrite ?app_length; simpl; lia.
    + intros l H. cbn in H. injection H as <-. left. unfold next; simpl. rewrite !app_length; simpl; lia.
    + intros l H. cbn in H.
      match type of H with o_eigs (nth _ (upd _ _ ?o) _) = _ => destruct (OU o) as [Q|Q] end.
      * rewrite Q in H. cbn in H. injection H as <-. left. unfold next; simpl. lia.
      * rewrite UO in H by auto. right. exact H.
    + intros d H. unfold dict_at; simpl. rewrite !app_nth1; auto; rewrite ?app_length; simpl; lia.
Qed.

Lemma owned_fit w i s f : wf w -> nth_error (insts w) i = Some s -> alone w i ->
  (exists T, owned w T) -> exists T, owned (fst (fit w i s f)) T.
Proof.
  intros W I Al (T & H). pose proof (fit_shape w i s f I) as (s' & x & F1 & F2 & F3 & F4 & F5 & F6 & F7 & F8 & F9 & _).
  set (w' := fst (fit w i s f)) in *.
  exists (fun l => if l <? next w then T l else TF (in_op s)).
  assert (old : forall l, l < next w -> (if l <? next w then T l else TF (in_op s)) = T l).
  { intros l L. destruct (Nat.ltb_spec l (next w)); auto. lia. }
  assert (new : forall l, next w <= l -> (if l <? next w then T l else TF (in_op s)) = TF (in_op s)).
  { intros l L. destruct (Nat.ltb_spec l (next w)); auto. lia. }
  destruct H as [A B C D E].
  assert (Oo : nth_error (opers w) (in_op s) = Some (oper_of w s)).
  { unfold oper_of. apply nth_error_nth'. apply (nth_error_wf _ _ _ W I). }
  constructor.
  - intros o y l O H. rewrite F2 in O. apply nth_upd_lookup in O as [[-> ->]|[No O]].
    + destruct H as [H|H].
      * apply F8 in H as [L|H]; auto. rewrite old by (eapply loc_op; eauto). eauto.
      * apply F9 in H as [L|H]; auto. rewrite old by (eapply loc_op; eauto). eauto.
    + rewrite old by (eapply loc_op; eauto). eauto.
  - intros j t l J Bj. rewrite F1 in J. apply nth_upd_lookup in J as [[-> ->]|[Nj J]].
    + rewrite new, F3; auto.
    + rewrite old by (eapply loc_b; eauto). eauto.
  - intros j t p px k J Pj Q. rewrite F1 in J. unfold proxy_at in Q. rewrite F5 in Q.
    apply nth_upd_lookup in J as [[-> ->]|[Nj J]]; [congruence|].
    destruct (loc_px _ _ _ k W Q). rewrite !old by auto. eauto.
  - intros j1 j2 t1 t2 p J1 J2 P1 P2. rewrite F1 in J1, J2.
    apply nth_upd_lookup in J1 as [[-> ->]|[N1 J1]]; [congruence|].
    apply nth_upd_lookup in J2 as [[-> ->]|[N2 J2]]; [congruence|eauto].
  - intros j1 j2 t1 t2 J1 J2 P1 P2. rewrite F1 in J1, J2.
    apply nth_upd_lookup in J1 as [[-> ->]|[N1 J1]]; apply nth_upd_lookup in J2 as [[-> ->]|[N2 J2]]; auto.
    + rewrite F3 in P2. eapply Al; eauto.
    + rewrite F3 in P2. symmetry. eapply Al; eauto.
    + eauto.
Qed.

Lemma owned_step w o : wf w -> op_ok o -> fits_alone w o ->
  (exists T, owned w T) -> exists T, owned (fst (step w o)) T.
Proof.
  intros W Ok Al H. destruct o; simpl; unfold with_inst, of_unit;
    try (destruct (nth_error (insts w) i) as [s|] eqn:I; [|exact H]).
  - destruct H as (T & [A B C D E]). exists T.
    assert (Lk : forall j t, nth_error (insts w ++ [mkInst (length (opers w)) None None None None None]) j = Some t ->
      nth_error (insts w) j = Some t \/ (j = length (insts w) /\ t = mkInst (length (opers w)) None None None None None)).
    { intros j t J. destruct (Nat.lt_ge_cases j (length (insts w))) as [L|L].
      - rewrite nth_error_app1 in J; auto.
      - rewrite nth_error_app2 in J by auto. right.
        destruct (j - length (insts w)) as [|[|]] eqn:Ej; simpl in J; try discriminate.
        injection J as <-. split; auto; lia. }
    constructor; simpl.
    + intros o x l O Hl. destruct (Nat.lt_ge_cases o (length (opers w))) as [L|L].
      * rewrite nth_error_app1 in O; eauto.
      * rewrite nth_error_app2 in O by auto.
        destruct (o - length (opers w)) as [|[|]]; simpl in O; try discriminate.
        injection O as <-. destruct Hl; discriminate.
    + intros j t l J Hl. apply Lk in J as [J|[-> ->]]; [eauto|discriminate].
    + intros j t p px k J P Q. apply Lk in J as [J|[-> ->]]; [eauto|discriminate].
    + intros j1 j2 t1 t2 p J1 J2 P1 P2.
      apply Lk in J1 as [J1|[-> ->]]; [|discriminate]. apply Lk in J2 as [J2|[-> ->]]; [eauto|discriminate].
    + intros j1 j2 t1 t2 J1 J2 P1 P2.
      apply Lk in J1 as [J1|[-> ->]]; apply Lk in J2 as [J2|[-> ->]]; auto.
      * eauto.
      * apply nth_error_wf in J1 as (Q & _); auto. simpl in P2. lia.
      * apply nth_error_wf in J2 as (Q & _); auto. simpl in P2. lia.
  - now apply owned_fit.
  - pose proof (get_arr_world w i s k I) as T. pose proof (owned_touch w i s W I H) as Wt.
    destruct (get_arr w i s k) as [w1 [[l|]|x]]; cbn [fst] in *; rewrite <- T in Wt; auto.
    destruct Wt as (T' & Wt). exists T'. apply (owned_ext w1); auto.
  - destruct (nth_error (handles w) h) as [l|]; [|exact H].
    destruct (Nat.ltb_spec j (length (hget w l))); [|exact H].
    destruct H as (T & H). exists T. apply (owned_ext w); auto.
  - rewrite (get_mask_peek w i s I). now apply owned_touch.
  - now apply owned_set_mask.
  - pose proof (getitem_owned w i s k W I H) as G. destruct (getitem w i s k). exact G.
  - exact H.
  - unfold time_setitem. destruct (get_time w s a); auto.
    destruct (_ && _); auto. destruct H as (T & H). exists T. apply (owned_ext w); auto.
  - unfold time_update. destruct (get_time w s a); auto. destruct H as (T & H). exists T. apply (owned_ext w); auto.
  - unfold time_delitem. destruct (get_time w s a); auto. destruct (d_get _ _); auto.
    destruct H as (T & H). exists T. apply (owned_ext w); auto.
  - assert (Q : forall w2 s2, in_op s2 = in_op s -> in_b s2 = in_b s -> in_px s2 = in_px s ->
      opers w2 = opers w -> insts w2 = insts w -> proxies w2 = proxies w ->
      exists T, owned (set_inst w2 i s2) T).
    { intros w2 s2 Q1 Q2 Q3 R1 R2 R3. destruct H as (T & [A B C D E]). exists T.
      assert (Lk : forall j t, nth_error (upd (insts w) i s2) j = Some t ->
        exists t', nth_error (insts w) j = Some t' /\ in_op t = in_op t' /\ in_b t = in_b t' /\ in_px t = in_px t').
      { intros j t J. apply nth_upd_lookup in J as [[-> ->]|[N J]]; eauto. }
      constructor; unfold proxy_at; simpl; rewrite ?R1, ?R2, ?R3; auto.
      - intros j t l J Hl. apply Lk in J as (t' & J & K1 & K2 & K3). rewrite K1. eapply B; eauto. congruence.
      - intros j t p px k J Hp Hq. apply Lk in J as (t' & J & K1 & K2 & K3). rewrite K1. eapply C; eauto. congruence.
      - intros j1 j2 t1 t2 p J1 J2 P1 P2. apply Lk in J1 as (t1' & J1 & K1 & K2 & K3).
        apply Lk in J2 as (t2' & J2 & L1 & L2 & L3). apply (D j1 j2 t1' t2' p); auto; congruence.
      - intros j1 j2 t1 t2 J1 J2 P1 P2. apply Lk in J1 as (t1' & J1 & K1 & K2 & K3).
        apply Lk in J2 as (t2' & J2 & L1 & L2 & L3). apply (E j1 j2 t1' t2'); auto; congruence. }
    unfold assign_time. destruct v as [D0|]; [destruct (_ && _); auto|]; apply Q; reflexivity.
  - exact H.
Qed.

Lemma reach_owned w : reach w -> exists T, owned w T.
Proof.
  induction 1.
  - exists (fun _ => TF 0). constructor; simpl; intros; destruct i || destruct o; discriminate.
  - apply owned_step; auto. now apply reach_wf.
Qed.

(** ** Frames *)
Lemma same_time_eq w w' s : dicts w' = dicts w -> same_time w w' s.
Proof. intros H a d _. unfold dict_at. now rewrite H. Qed.

(** changing arrays of the family of [i] (or of its proxy) is invisible to [j] *)
Lemma same_arr_owned w w' T i j s t : wf w -> owned w T ->
  nth_error (insts w) i = Some s -> nth_error (insts w) j = Some t -> i <> j ->
  oper_of w' t = oper_of w t ->
  (forall p, in_px t = Some p -> proxy_at w' p = proxy_at w p) ->
  (forall l, l < next w -> T l <> TF (in_op s) -> (forall p, in_px s = Some p -> T l <> TP p) ->
     hget w' l = hget w l) ->
  (in_px s = None -> forall l o, l < next w -> T l = TF o -> o <> in_op s -> hget w' l = hget w l) ->
  same_arr w w' t.
Proof.
  intros W Ow I J N O P H H0. split; auto.
  pose proof (nth_error_wf _ _ _ W J) as (J1 & _).
  assert (Oo : nth_error (opers w) (in_op t) = Some (oper_of w t)).
  { unfold oper_of. now apply nth_error_nth'. }
  destruct (in_px t) as [p|] eqn:Pt.
  - split; auto. intros px k Q. destruct (loc_px _ _ _ k W Q) as [L _].
    destruct (g_px _ _ Ow _ _ _ _ k J Pt Q) as [R _].
    apply H; auto; [congruence|]. intros q Sq E. rewrite R in E. injection E as <-.
    apply N. eapply (g_inj _ _ Ow); eauto.
  - assert (No : in_op t <> in_op s).
    { intros E. apply N. symmetry. eapply (g_none _ _ Ow); eauto. }
    repeat split; intros l Hl.
    + assert (R : T l = TF (in_op t)) by (eapply (g_op _ _ Ow); eauto).
      apply H; [eapply loc_op; eauto| |]; rewrite R; congruence.
    + assert (R : T l = TF (in_op t)) by (eapply (g_op _ _ Ow); eauto).
      apply H; [eapply loc_op; eauto| |]; rewrite R; congruence.
    + assert (R : T l = TF (in_op t)) by (eapply (g_b _ _ Ow); eauto).
      apply H; [eapply loc_b; eauto| |]; rewrite R; congruence.
Qed.

Lemma hget_flush w px l : (forall k, px_orig px k <> l) -> hget (flush w px) l = hget w l.
Proof.
  intros H. unfold flush. pose proof (H KModes). pose proof (H KEigs). pose proof (H KAmps). simpl in *.
  now rewrite !hget_hset_neq.
Qed.

Lemma mask_world_old w p px value l : l < next w -> (forall k, px_orig px k <> l) ->
  hget (mask_world w p px value) l = hget w l.
Proof.
  intros L N. unfold mask_world.
  match goal with |- hget (set_proxy ?X _ _) _ = _ => change (hget X l = hget w l) end.
  rewrite hget_al3_lt by now rewrite next_flush. now apply hget_flush.
Qed.

Theorem setmask_frame w i j v : reach w -> maskval_ok v -> i <> j ->
  observe (fst (step w (SetMask i v))) j = observe w j.
Proof.
  intros R Mv N. pose proof (reach_wf _ R) as W.
  simpl. unfold with_inst, of_unit. destruct (nth_error (insts w) i) as [s|] eqn:I; [|auto]. cbn [fst].
  pose proof (set_mask_spec w i s v W Mv I) as S.
  destruct (fitted w s && mv_bool v); [|rewrite S; auto].
  destruct (peek_mask w s) as [m|]; [|rewrite S; now apply touch_observe].
  destruct (list_eq_dec _ _ _); [|rewrite S; now apply touch_observe].
  destruct S as (s1 & p & px & I1 & P1 & Q1 & M1 & ->). cbn [fst].
  rewrite <- (touch_observe w i s j W I).
  pose proof (wf_touch _ _ _ W I) as W1.
  destruct (owned_touch w i s W I (reach_owned _ R)) as (T & Ow).
  set (w1 := touch w i s) in *.
  destruct (nth_error (insts w1) j) as [t|] eqn:J; [|now rewrite !observe_none].
  apply (observe_same _ _ _ t); auto; [|now apply same_time_eq].
  apply (same_arr_owned w1 _ T i j s1 t); auto.
  - intros q Pt. unfold proxy_at, mask_world; simpl.
    rewrite nth_error_upd_neq; auto. intros ->. apply N. eapply (g_inj _ _ Ow); eauto.
  - intros l L T1 T2. apply mask_world_old; auto.
    intros k E. apply T1. rewrite <- E. eapply (g_px _ _ Ow); eauto.
  - congruence.
Qed.

Lemma observe_handle w l j : observe (add_handle w l) j = observe w j.
Proof.
  destruct (nth_error (insts w) j) as [t|] eqn:J; [|now rewrite !observe_none].
  apply (observe_same _ _ _ t); auto; [|now apply same_time_eq].
  split; auto. destruct (in_px t); repeat split; auto.
Qed.

Lemma get_frame w i k j : wf w -> observe (fst (step w (Get i k))) j = observe w j.
Proof.
  intros W. destruct (nth_error (insts w) i) as [s|] eqn:I.
  - destruct (step_get_peek w i s k I) as [_ [-> | (l & ->)]]; [now apply touch_observe|].
    rewrite <- (touch_observe w i s j W I). apply observe_handle.
  - simpl. unfold with_inst. now rewrite I.
Qed.
Lemma getmask_frame w i j : wf w -> observe (fst (step w (GetMask i))) j = observe w j.
Proof.
  intros W. simpl. unfold with_inst. destruct (nth_error (insts w) i) as [s|] eqn:I; auto.
  rewrite (get_mask_peek w i s I). cbn [fst]. now apply touch_observe.
Qed.

Theorem timeassign_frame w i j v : i <> j ->
  (forall s, nth_error (insts w) j = Some s -> inst_wf w s) ->
  observe (fst (step w (TimeAssign i v))) j = observe w j.
Proof.
  intros N Hw. simpl. unfold with_inst, of_unit. destruct (nth_error (insts w) i) as [s|] eqn:I; [|auto]. cbn [fst].
  destruct (nth_error (insts w) j) as [t|] eqn:J.
  - specialize (Hw _ eq_refl) as (_ & _ & _ & H1 & H2 & _).
    assert (Jn : forall w2 s2, insts w2 = insts w -> nth_error (insts (set_inst w2 i s2)) j = Some t).
    { intros w2 s2 E. simpl. rewrite E, nth_error_upd_neq; auto. }
    assert (SA : forall w2 s2, opers w2 = opers w -> proxies w2 = proxies w -> heap w2 = heap w ->
      same_arr w (set_inst w2 i s2) t).
    { intros w2 s2 E1 E2 E3. split; [unfold oper_of; simpl; now rewrite E1|].
      destruct (in_px t); [split|repeat split]; unfold proxy_at, hget; simpl; rewrite ?E2, ?E3; auto. }
    unfold assign_time. destruct v as [D|].
    + destruct (_ && _); auto.
      cbn [fst]. apply (observe_same _ _ _ t); [exact J|now apply Jn|apply SA; reflexivity|].
      intros a d E. unfold dict_at; simpl. rewrite app_nth1; auto.
      destruct a; simpl in E; rewrite E in *; auto.
    + cbn [fst]. apply (observe_same _ _ _ t); [exact J|now apply Jn|apply SA; reflexivity|now apply same_time_eq].
  - assert (Jn : forall w2 s2, insts w2 = insts w -> nth_error (insts (set_inst w2 i s2)) j = None).
    { intros w2 s2 E. simpl. rewrite E, nth_error_upd_neq; auto. }
    unfold assign_time. destruct v as [D|]; [destruct (_ && _); auto|]; cbn [fst]; rewrite !observe_none; auto.
Qed.

(** the arrays after a successful copy: nothing old changes *)
Lemma flush_same w px l : px_wf w px ->
  (forall k, hget w (px_orig px k) = hget w (px_prox px k)) ->
  (forall k, px_mask px = repeat true (length (hget w (px_orig px k)))) ->
  hget (flush w px) l = hget w l.
Proof.
  intros W E M.
  assert (U : forall k, unsel (px_mask px) (hget w (px_orig px k)) (hget w (px_prox px k)) = hget w (px_orig px k)).
  { intros k. rewrite <- (E k), (M k). apply unsel_repeat_true; auto. }
  pose proof (U KModes) as U1; pose proof (U KEigs) as U2; pose proof (U KAmps) as U3. simpl in *.
  assert (S : forall w0 l0 l, hget (hset w0 l0 (hget w0 l0)) l = hget w0 l).
  { intros w0 l0 l1. destruct (Nat.eq_dec l0 l1) as [<-|Ne]; [|now rewrite hget_hset_neq].
    destruct (Nat.lt_ge_cases l0 (next w0)).
    - now rewrite hget_hset_eq.
    - unfold hget, hset, next in *; simpl. rewrite !nth_overflow; auto. now rewrite length_upd. }
  unfold flush. rewrite U1, U2, U3.
  set (w1 := hset w (px_om px) (hget w (px_om px))).
  assert (S1 : forall l, hget w1 l = hget w l) by (intros; apply S).
  set (w2 := hset w1 (px_oe px) (hget w (px_oe px))).
  assert (S2 : forall l, hget w2 l = hget w l).
  { intros l1. unfold w2. rewrite <- (S1 (px_oe px)). rewrite S. apply S1. }
  rewrite <- (S2 (px_oa px)). rewrite S. apply S2.
Qed.

(** arrays of the world after [dmd[key]] *)
Lemma copy_arrays w i s m e b mask : wf w -> nth_error (insts w) i = Some s -> alloc_ready w s m e b ->
  let w2 := add_inst w s in
  let w3 := alloc_world w2 (length (insts w)) s m e b in
  let px := fresh_px w2 m e b (repeat true (length (hget w2 e))) in
  let w4 := mask_world w3 (length (proxies w)) px mask in
  (forall l, l < next w -> hget w4 l = hget w l) /\
  hget w4 (next w3) = sel mask (hget w m) /\ hget w4 (S (next w3)) = sel mask (hget w e) /\
  hget w4 (S (S (next w3))) = sel mask (hget w b).
Proof.
  intros W I A. cbv zeta.
  set (w2 := add_inst w s). set (w3 := alloc_world w2 _ s m e b).
  set (px := fresh_px w2 m e b _). set (w4 := mask_world _ _ _ _).
  destruct (alloc_ready_lt w s m e b W (nth_error_wf _ _ _ W I) A) as (Lm & Le & Lb).
  assert (W2 : wf w2) by (apply wf_add_inst; auto; eapply nth_error_wf; eauto).
  assert (W3 : wf w3).
  { apply wf_alloc; auto. exact (nth_error_wf _ _ _ W I). }
  assert (O3 : forall l, l < next w -> hget w3 l = hget w l).
  { intros l L. change (hget (al3 w2 (hget w2 m) (hget w2 e) (hget w2 b)) l = hget w l).
    rewrite hget_al3_lt; auto. }
  assert (N3 : next w3 = 3 + next w).
  { change (next (al3 w2 (hget w2 m) (hget w2 e) (hget w2 b)) = 3 + next w2). apply next_al3. }
  assert (Px : px_wf w3 px).
  { apply (wf_px _ W3). unfold w3, alloc_world; simpl. apply in_or_app. right. left. reflexivity. }
  assert (PE : forall k, hget w3 (px_orig px k) = hget w3 (px_prox px k)).
  { intros k. destruct k; unfold px; cbn [fresh_px px_orig px_prox orig3 px_om px_oe px_oa px_m px_e px_a];
      rewrite O3 by auto;
      change (hget w3) with (hget (al3 w2 (hget w2 m) (hget w2 e) (hget w2 b)));
      now rewrite ?hget_al3_0, ?hget_al3_1, ?hget_al3_2. }
  assert (PM : forall k, px_mask px = repeat true (length (hget w3 (px_orig px k)))).
  { intros k. destruct (Px k) as (_ & _ & L & _). rewrite L. unfold px; simpl. now rewrite repeat_length. }
  assert (FS : forall l, hget (flush w3 px) l = hget w3 l) by (intros; now apply flush_same).
  assert (G : hget w4 = hget (al3 (flush w3 px) (sel mask (hget w3 m)) (sel mask (hget w3 e)) (sel mask (hget w3 b)))).
  { unfold w4, mask_world. cbv zeta. rewrite !FS. reflexivity. }
  rewrite !G. rewrite <- (next_flush w3 px). rewrite hget_al3_0, hget_al3_1, hget_al3_2.
  rewrite !O3 by auto. split; auto.
  intros l L. rewrite hget_al3_lt by (rewrite next_flush; lia). rewrite FS; auto.
Qed.

Lemma proxy_at_upd_new w px k q : k <> q -> proxy_at (set_proxy w k px) q = proxy_at w q.
Proof. intros N. unfold proxy_at; simpl. now rewrite nth_error_upd_neq. Qed.

(** indexing changes nothing of what the existing instances show *)
Theorem getitem_frame w i k j : wf w -> j < length (insts w) ->
  observe (fst (step w (GetItem i k))) j = observe w j.
Proof.
  intros W Lj. simpl. unfold with_inst. destruct (nth_error (insts w) i) as [s|] eqn:I; [|auto].
  pose proof (getitem_spec w i s k W I) as G.
  destruct (match check_key k with Ok _ => _ | Err x => _ end) as [mask|x].
  - destruct G as (s1 & I1 & [(x & ->)|(m & e & b & A & L & P & ->)]); [now apply touch_observe|].
    cbn [fst]. rewrite <- (touch_observe w i s j W I).
    pose proof (wf_touch _ _ _ W I) as W1. destruct (touch_frame w i s I) as (_ & _ & _ & _ & _ & _ & Ln).
    set (w1 := touch w i s) in *.
    destruct (copy_arrays w1 i s1 m e b mask W1 I1 A) as (Old & _).
    destruct (nth_error (insts w1) j) as [t|] eqn:J.
    2: { apply nth_error_None in J. lia. }
    apply (observe_same _ _ _ t); auto.
    + change (nth_error (insts (alloc_world (add_inst w1 s1) (length (insts w1)) s1 m e b)) j = Some t).
      rewrite insts_alloc_copy, nth_error_app1; auto. lia.
    + apply same_arr_grow; auto; [eapply nth_error_wf; eauto|].
      intros p px Q. unfold proxy_at, mask_world in *; simpl.
      assert (p < length (proxies w1)) by (apply nth_error_Some; congruence).
      rewrite nth_error_upd_neq by lia. now rewrite nth_error_app1.
    + now apply same_time_eq.
  - destruct G as [-> | ->]; auto. now apply touch_observe.
Qed.

(** fitting an instance whose operator nobody shares is invisible to the others *)
Theorem fit_frame w i j f : reach w -> alone w i -> i <> j ->
  observe (fst (step w (Fit i f))) j = observe w j.
Proof.
  intros R Al N. pose proof (reach_wf _ R) as W.
  simpl. unfold with_inst, of_unit. destruct (nth_error (insts w) i) as [s|] eqn:I; [|auto]. cbn [fst].
  destruct (fit_shape w i s f I) as (s' & x & F1 & F2 & F3 & F4 & F5 & F6 & F7 & F8 & F9 & F10 & F11).
  destruct (nth_error (insts w) j) as [t|] eqn:J.
  - pose proof (nth_error_wf _ _ _ W J) as (K1 & K2 & K3 & K4 & K5 & _).
    assert (No : in_op s <> in_op t) by (intros E; apply N; eapply Al; eauto).
    apply (observe_same _ _ _ t); auto.
    + rewrite F1, nth_error_upd_neq; auto.
    + assert (Oe : oper_of (fst (fit w i s f)) t = oper_of w t).
      { unfold oper_of. rewrite F2. now apply nth_upd_neq. }
      split; auto. pose proof (wf_opers _ W _ (oper_of_In _ _ K1)) as [O1 O2].
      destruct (in_px t) as [p|].
      * unfold proxy_at. rewrite F5. split; auto. intros px k Q. apply F6. eapply loc_px; eauto.
      * repeat split; intros l H; apply F6.
        -- now rewrite H in O1.
        -- now rewrite H in O2.
        -- now rewrite H in K2.
    + intros a d E. rewrite F11; auto. destruct a; simpl in E; rewrite E in *; auto.
  - rewrite !observe_none; auto. rewrite F1, nth_error_upd_neq; auto.
Qed.

(** edit of an array just read from [i] *)
Lemma get_handle w i s k : nth_error (insts w) i = Some s ->
  forall l, fst (step w (Get i k)) = add_handle (touch w i s) l ->
  (exists s1 p px, nth_error (insts (touch w i s)) i = Some s1 /\ in_px s1 = Some p /\
     proxy_at (touch w i s) p = Some px /\ l = px_prox px k) \/
  (in_px s = None /\ in_b s = None /\ touch w i s = w /\ fitted w s = true /\
     (o_modes (oper_of w s) = Some l \/ o_eigs (oper_of w s) = Some l)).
Proof.
  intros I l E. simpl in E. unfold with_inst in E. rewrite I in E.
  unfold get_arr, touch in *. destruct (fitted w s) eqn:F.
  2: { exfalso. cbn in E. assert (H : handles w = handles w ++ [l]) by (rewrite E at 1; reflexivity).
       apply (f_equal (@List.length _)) in H. rewrite app_length in H. simpl in H. lia. }
  pose proof (ensure_spec w i s) as S.
  assert (HA : forall w0 l0 l1, add_handle w0 l0 = add_handle w0 l1 -> l0 = l1).
  { intros w0 l0 l1 H. injection H as H. apply app_inj_tail in H as [_ H]. auto. }
  assert (HN : forall w0 l0, w0 <> add_handle w0 l0).
  { intros w0 l0 H. apply (f_equal handles) in H. simpl in H.
    apply (f_equal (@List.length _)) in H. rewrite app_length in H. simpl in H. lia. }
  destruct (in_px s) as [p|] eqn:P.
  - rewrite S, P in E. rewrite S. cbn [fst] in *.
    destruct (proxy_at w p) as [px|] eqn:Q.
    + cbn [fst] in E. apply HA in E. left. exists s, p, px. repeat split; auto.
    + exfalso. eapply HN; eauto.
  - destruct (alloc_check w s) eqn:C.
    2: { rewrite S in E. cbn [fst] in E. exfalso; eapply HN; eauto. }
    destruct (in_b s) as [b|] eqn:B.
    + destruct S as (m & e & A & S). rewrite S in *. cbn [fst in_px with_px] in *.
      assert (PA : proxy_at (alloc_world w i s m e b) (length (proxies w)) =
        Some (fresh_px w m e b (repeat true (length (hget w e))))).
      { unfold proxy_at; simpl. now rewrite nth_error_app2, Nat.sub_diag. }
      rewrite PA in E. cbn [fst] in E. apply HA in E. left.
      eexists _, _, _. split; [simpl; apply nth_error_upd_eq, nth_error_Some; congruence|].
      split; [reflexivity|]. split; [exact PA|]. destruct k; auto.
    + rewrite S, P in E. rewrite S. cbn [fst] in *. right.
      destruct k.
      * destruct (o_modes (oper_of w s)) as [l0|]; [|exfalso; eapply HN; eauto].
        cbn [fst] in E. apply HA in E. subst. auto 7.
      * destruct (o_eigs (oper_of w s)) as [l0|]; [|exfalso; eapply HN; eauto].
        cbn [fst] in E. apply HA in E. subst. auto 7.
      * exfalso; eapply HN; eauto.
Qed.

(** editing an array just obtained from [i] is invisible to the others *)
Theorem edit_frame w i k j n v : reach w -> i <> j ->
  observe (fst (run w [Get i k; Edit (length (handles w)) n v])) j = observe w j.
Proof.
  intros R N. pose proof (reach_wf _ R) as W.
  rewrite !run_fst. change (fst (run ?x [])) with x.
  rewrite <- (get_frame w i k j W).
  destruct (nth_error (insts w) i) as [s|] eqn:I.
  2: { simpl. unfold with_inst. rewrite I. cbn [fst].
       replace (nth_error (handles w) (length (handles w))) with (@None loc)
         by (symmetry; apply nth_error_None; lia). reflexivity. }
  destruct (touch_frame w i s I) as (_ & _ & Hh & _).
  destruct (step_get_peek w i s k I) as [_ [E | (l & E)]].
  - rewrite E. simpl. rewrite Hh.
    replace (nth_error (handles w) (length (handles w))) with (@None loc)
         by (symmetry; apply nth_error_None; lia). reflexivity.
  - pose proof (get_handle w i s k I l E) as Hl. rewrite E. simpl. rewrite Hh.
    rewrite nth_error_app2, Nat.sub_diag by auto. simpl.
    destruct (Nat.ltb_spec n (length (hget (add_handle (touch w i s) l) l))); [|reflexivity].
    cbn [fst].
    pose proof (wf_touch _ _ _ W I) as W1.
    destruct (owned_touch w i s W I (reach_owned _ R)) as (T & Ow).
    set (w1 := touch w i s) in *.
    rewrite observe_handle.
    change (observe (add_handle (hset w1 l (upd (hget w1 l) n v)) l) j = observe w1 j).
    rewrite observe_handle.
    destruct (nth_error (insts w1) j) as [t|] eqn:J; [|now rewrite !observe_none].
    apply (observe_same _ _ _ t); auto; [|now apply same_time_eq].
    destruct Hl as [(s1 & p & px & I1 & P1 & Q1 & ->)|(Pn & Bn & T1 & Fi & Ho)].
    + apply (same_arr_owned w1 _ T i j s1 t); auto; [|congruence].
      intros l L T1 T2. apply hget_hset_neq. intros <-.
      destruct (g_px _ _ Ow _ _ _ _ k I1 P1 Q1) as [R1 _]. eapply T2; eauto.
    + rewrite T1 in *.
      assert (Oo : nth_error (opers w) (in_op s) = Some (oper_of w s)).
      { unfold oper_of. apply nth_error_nth'. apply (nth_error_wf _ _ _ W I). }
      apply (same_arr_owned w _ T i j s t); auto.
      * intros l' L T2 T3. apply hget_hset_neq. intros <-. apply T2. eapply (g_op _ _ Ow); eauto.
      * intros _ l' o L T2 No. apply hget_hset_neq. intros <-. apply No.
        assert (T l = TF (in_op s)) by (eapply (g_op _ _ Ow); eauto). congruence.
Qed.

End P.
