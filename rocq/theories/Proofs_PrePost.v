(** * Proofs about the pre/post-processing wrappers *)
From Coq Require Import List ZArith Lia Bool Arith String.
From Verif Require Import Py Model_PrePost Spec_PrePost.
Import ListNotations.
Local Open Scope string_scope.
Local Notation length := List.length.

Section P.
Context {V St B : Type}.
Notation obj := (obj V St B).
Notation pp := (pp V St).
Implicit Types (o : obj) (ops : base_ops V B).

Lemma lookup_assign k v (d : kwargs V) k' :
  lookup k' (assign k v d) = if String.eqb k' k then Some v else lookup k' d.
Proof.
  induction d as [|[k0 v0] d IH]; simpl.
  - destruct (String.eqb k' k); auto.
  - destruct (String.eqb_spec k k0) as [->|N]; simpl.
    + destruct (String.eqb_spec k' k0); auto.
    + rewrite IH. destruct (String.eqb_spec k' k0), (String.eqb_spec k' k); subst; auto. congruence.
Qed.
Lemma keys_assign k v (d : kwargs V) x : lookup k d = Some x -> map fst (assign k v d) = map fst d.
Proof.
  induction d as [|[k0 v0] d IH]; simpl; [discriminate|].
  destruct (String.eqb_spec k k0) as [->|N]; simpl; auto. intros H. f_equal. auto.
Qed.

Lemma replace_retargets args (kw : kwargs V) x y : extract args kw = Ok x ->
  retargeted args kw x y (fst (replace y args kw)) (snd (replace y args kw)).
Proof.
  unfold extract, replace, retargeted. destruct args as [|a r].
  - destruct (lookup "X" kw) as [x'|] eqn:E; [|discriminate]. injection 1 as ->. right. simpl.
    rewrite lookup_assign, String.eqb_refl.
    split; [reflexivity|]. split; [reflexivity|]. split; [reflexivity|]. split; [reflexivity|].
    split; [eapply keys_assign; eauto|].
    intros k Hk. rewrite lookup_assign. destruct (String.eqb_spec k "X"); congruence.
  - injection 1 as ->. left. exists r. auto.
Qed.
Lemma extract_replace args (kw : kwargs V) x y : extract args kw = Ok x ->
  extract (fst (replace y args kw)) (snd (replace y args kw)) = Ok y.
Proof.
  unfold extract, replace. destruct args as [|a r]; auto.
  destruct (lookup "X" kw) eqn:E; [|discriminate]. intros _. simpl. now rewrite lookup_assign, String.eqb_refl.
Qed.
Lemma assign_assign k v w (d : kwargs V) : assign k w (assign k v d) = assign k w d.
Proof.
  induction d as [|[k0 v0] d IH]; simpl; [now rewrite String.eqb_refl|].
  destruct (String.eqb_spec k k0) as [->|N]; simpl; [now rewrite String.eqb_refl|].
  destruct (String.eqb_spec k k0); [contradiction|]. now rewrite IH.
Qed.
Lemma replace_replace args (kw : kwargs V) x y z : extract args kw = Ok x ->
  replace z (fst (replace y args kw)) (snd (replace y args kw)) = replace z args kw.
Proof.
  unfold extract, replace. destruct args as [|a r]; auto.
  destruct (lookup "X" kw) eqn:E; [|discriminate]. intros _. simpl.
  now rewrite lookup_assign, String.eqb_refl, assign_assign.
Qed.

(** a fit all of whose pre-processing steps succeed *)
Lemma fit_chain ops o : forall args kw x ss y, extract args kw = Ok x -> layers o <> [] ->
  pre_chain (layers o) x = Ok (ss, y) ->
  let a := replace y args kw in
  let r := b_fit ops (fst a) (snd a) (innermost o) in
  let o' := fst (call_fit ops o args kw) in
  layers o' = layers o /\ saved o' = map Some ss /\ dicts o' = dicts o /\ innermost o' = fst r /\
  snd (call_fit ops o args kw) = match snd r with Ok _ => Ok (length (layers o)) | Err e => Err e end.
Proof.
  induction o as [b|p out dict inner IH]; intros args kw x ss y Ex Ne E; [contradiction|].
  cbn [layers pre_chain] in E. cbn [call_fit]. rewrite Ex.
  destruct (pp_pre p x) as [[s x']|e]; [|discriminate]. cbn [bind fst snd] in E.
  destruct (pre_chain (layers inner) x') as [[ss' y']|e] eqn:E'; [|discriminate].
  cbn [bind fst snd] in E. injection E as <- <-.
  pose proof (extract_replace args kw x x' Ex) as Ex'.
  pose proof (replace_replace args kw x x' y' Ex) as RR.
  destruct (replace x' args kw) as [args' kw']. cbn [fst snd] in *.
  destruct inner as [b|p2 out2 dict2 inner2].
  - simpl in E'. injection E' as <- <-. simpl. rewrite <- RR.
    assert (R0 : replace x' args' kw' = (args', kw')).
    { revert Ex'. unfold extract, replace. destruct args'; [|injection 1 as ->; auto].
      destruct (lookup "X" kw') eqn:L; [|discriminate]. injection 1 as ->. f_equal. clear - L.
      induction kw' as [|[k v] d IH]; [discriminate|]. cbn [lookup assign] in *.
      destruct (String.eqb_spec "X" k) as [<-|N]; [injection L as ->; reflexivity|].
      f_equal. auto. }
    rewrite R0. cbn [fst snd]. destruct (b_fit ops args' kw' b) as [b' r]. simpl. destruct r; auto.
  - specialize (IH args' kw' x' ss' y' Ex' ltac:(discriminate) E').
    rewrite RR in IH. cbv zeta in IH. destruct IH as (I1 & I2 & I3 & I4 & I5).
    destruct (call_fit ops (OWrap p2 out2 dict2 inner2) args' kw') as [o' r'].
    cbn [fst snd] in *. cbn [layers saved dicts innermost map]. rewrite I1, I2, I3. subst r'.
    split; [reflexivity|]. split; [reflexivity|]. split; [reflexivity|]. split; [exact I4|].
    destruct (snd (b_fit ops _ _ _)); reflexivity.
Qed.

Lemma fit_pre_error ops o : forall args kw x e, extract args kw = Ok x ->
  pre_chain (layers o) x = Err e ->
  snd (call_fit ops o args kw) = Err e /\ innermost (fst (call_fit ops o args kw)) = innermost o.
Proof.
  induction o as [b|p out dict inner IH]; intros args kw x e Ex E; [discriminate|].
  cbn [layers pre_chain] in E. cbn [call_fit]. rewrite Ex.
  destruct (pp_pre p x) as [[s x']|e']; [|simpl in E; injection E as ->; auto]. cbn [bind fst snd] in E.
  destruct (pre_chain (layers inner) x') as [[ss' y']|e'] eqn:E'; [discriminate|].
  cbn [bind] in E. injection E as ->.
  pose proof (extract_replace args kw x x' Ex) as Ex'.
  destruct (replace x' args kw) as [args' kw']. cbn [fst snd] in *.
  destruct (IH args' kw' x' e Ex' E') as [I1 I2]. destruct (call_fit ops inner args' kw'). cbn [fst snd] in *.
  subst. simpl. auto.
Qed.

(** reconstructed_data *)
Lemma reconstructed_chain ops o :
  same_rec (reconstructed ops o) (post_rec (post_chain (layers o) (saved o)) (b_rec ops (innermost o))).
Proof.
  induction o as [b|p out dict inner IH]; simpl.
  - destruct (b_rec ops b) as [r|f]; simpl.
    + destruct r; reflexivity.
    + intros a k. destruct (f a k); reflexivity.
  - destruct (reconstructed ops inner) as [r|f], (b_rec ops (innermost inner)) as [r'|f']; simpl in *; try contradiction.
    + subst r. destruct r'; reflexivity.
    + intros a k. rewrite IH. destruct (f' a k); reflexivity.
Qed.

(** assignments touch neither the wrappers nor the saved states *)
Lemma set_bitmask_frame ops o v : layers (fst (set_bitmask ops o v)) = layers o /\
  saved (fst (set_bitmask ops o v)) = saved o /\ dicts (fst (set_bitmask ops o v)) = dicts o /\
  innermost (fst (set_bitmask ops o v)) = fst (b_set ops (innermost o) "modes_activation_bitmask" v) /\
  snd (set_bitmask ops o v) = snd (b_set ops (innermost o) "modes_activation_bitmask" v).
Proof.
  induction o as [b|p out dict inner IH]; simpl.
  - destruct (b_set ops b _ v); simpl; auto.
  - destruct (set_bitmask ops inner v) as [i r]. simpl in *.
    destruct IH as (-> & -> & -> & -> & ->). auto.
Qed.
Lemma setattr_frame ops o n v : layers (fst (setattr ops o n v)) = layers o /\
  saved (fst (setattr ops o n v)) = saved o.
Proof.
  destruct o as [b|p out dict inner]; simpl.
  - destruct (b_set ops b n v); simpl; auto.
  - destruct (String.eqb n "modes_activation_bitmask").
    + pose proof (set_bitmask_frame ops inner v) as (H1 & H2 & _).
      destruct (set_bitmask ops inner v); simpl in *. now rewrite H1, H2.
    + destruct (String.eqb n "pre_post_processed_dmd"); simpl; auto.
Qed.
Lemma fit_layers ops o : forall args kw, layers (fst (call_fit ops o args kw)) = layers o /\
  dicts (fst (call_fit ops o args kw)) = dicts o /\
  length (saved (fst (call_fit ops o args kw))) = length (saved o).
Proof.
  induction o as [b|p out dict inner IH]; intros args kw; simpl.
  - destruct (b_fit ops args kw b); auto.
  - destruct (extract args kw); [|auto]. destruct (pp_pre p v) as [[s x']|]; [|auto].
    destruct (replace x' args kw) as [a k]. specialize (IH a k). destruct (call_fit ops inner a k). simpl in *.
    destruct IH as (-> & -> & ->). auto.
Qed.
Lemma act_layers ops o a : layers (act ops o a) = layers o.
Proof. destruct a; simpl; [apply fit_layers|apply setattr_frame|apply set_bitmask_frame]. Qed.
Lemma history_layers ops o l : layers (history ops o l) = layers o.
Proof. revert o. induction l as [|a l IH]; intros o; auto. unfold history. simpl. fold (history ops (act ops o a) l). now rewrite IH, act_layers. Qed.
Lemma history_saved ops o l : forallb (fun a => negb (is_fit a)) l = true -> saved (history ops o l) = saved o.
Proof.
  revert o. induction l as [|a l IH]; intros o H; auto. simpl in H. apply andb_prop in H as [H1 H2].
  unfold history. simpl. fold (history ops (act ops o a) l). rewrite IH by auto.
  destruct a; [discriminate|apply setattr_frame|apply set_bitmask_frame].
Qed.

(** whatever happened before and whatever attributes are set after: the latest
    fit decides the states used in post-processing *)
Lemma latest_fit ops o before args kw after x ss y :
  layers o <> [] -> extract args kw = Ok x -> pre_chain (layers o) x = Ok (ss, y) ->
  forallb (fun a => negb (is_fit a)) after = true ->
  let o' := history ops o (before ++ AFit args kw :: after) in
  same_rec (reconstructed ops o')
    (post_rec (post_chain (layers o) (map Some ss)) (b_rec ops (innermost o'))).
Proof.
  intros Ne Ex E Haft o'.
  assert (HL : layers o' = layers o) by apply history_layers.
  assert (HS : saved o' = map Some ss).
  { unfold o', history. rewrite fold_left_app. cbn [fold_left]. fold (history ops o before).
    set (o1 := history ops o before).
    change (fold_left (act ops) after (act ops o1 (AFit args kw))) with (history ops (act ops o1 (AFit args kw)) after).
    rewrite history_saved by auto. cbn [act].
    assert (L1 : layers o1 = layers o) by apply history_layers.
    rewrite <- L1 in Ne, E. apply (fit_chain ops o1 args kw x ss y Ex Ne E). }
  rewrite <- HL, <- HS. apply reconstructed_chain.
Qed.

(** attributes *)
Lemma getattr_inner ops o name : (forall d, In d (dicts o) -> lookup name d = None) ->
  getattr ops o name = b_get ops (innermost o) name.
Proof.
  induction o as [b|p out dict inner IH]; simpl; auto. intros H. rewrite (H dict) by now left.
  apply IH. intros d Hd. apply H. now right.
Qed.
Lemma dicts_no_set ops o l : forallb (fun a => match a with ASet _ _ => false | _ => true end) l = true ->
  dicts (history ops o l) = dicts o.
Proof.
  revert o. induction l as [|a l IH]; intros o H; auto. simpl in H. apply andb_prop in H as [H1 H2].
  unfold history. simpl. fold (history ops (act ops o a) l). rewrite IH by auto.
  destruct a; [apply fit_layers|discriminate|apply set_bitmask_frame].
Qed.
Lemma bitmask_inner ops o : get_bitmask ops o = b_get ops (innermost o) "modes_activation_bitmask".
Proof. induction o; simpl; auto. Qed.

(** no training data *)
Lemma fit_missing ops o (kw : kwargs V) : layers o <> [] -> lookup "X" kw = None ->
  call_fit ops o [] kw = (o, Err ValueError).
Proof. destruct o; [contradiction|]. intros _ H. simpl. now rewrite H. Qed.

(** round trips compose *)
Lemma inverts_chain (ps : list pp) : forall x, inverts ps x ->
  exists ss y, pre_chain ps x = Ok (ss, y) /\ post_chain ps (map Some ss) y = Ok x.
Proof.
  induction ps as [|p ps IH]; intros x H; simpl in *.
  - exists [], x. auto.
  - destruct H as (s & x' & E & R & H). rewrite E. cbn [bind fst snd].
    destruct (IH x' H) as (ss & y & E' & R'). rewrite E'. cbn [bind fst snd].
    exists (s :: ss), y. split; auto. cbn [map]. rewrite R'. cbn [bind]. exact R.
Qed.
End P.
