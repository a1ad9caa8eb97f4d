(** * C26: pre/post-processing wrappers *)
From Coq Require Import List ZArith Lia Bool Arith String.
From Verif Require Import Py Model_PrePost Spec_PrePost Proofs_PrePost.
Import ListNotations.
Local Open Scope string_scope.
Local Notation length := List.length.

(** a fit on training data x, under any number of wrappers: the DMD is fitted
    on the pre-processed data (outermost step first) with all other arguments
    unchanged, and every wrapper keeps the state of its own step *)
Theorem C26_fit {V St B} (ops : base_ops V B) (o : obj V St B) args kw x ss y :
  layers o <> [] -> extract args kw = Ok x -> pre_chain (layers o) x = Ok (ss, y) ->
  exists args' kw', retargeted args kw x y args' kw' /\
    let r := b_fit ops args' kw' (innermost o) in
    let o' := fst (call_fit ops o args kw) in
    innermost o' = fst r /\ saved o' = map Some ss /\ layers o' = layers o /\
    (forall e, snd r = Err e -> snd (call_fit ops o args kw) = Err e) /\
    (snd r = Ok tt -> snd (call_fit ops o args kw) = Ok (length (layers o))).
Proof.
  intros Ne Ex E. exists (fst (replace y args kw)), (snd (replace y args kw)).
  split; [now apply replace_retargets|].
  destruct (fit_chain ops o args kw x ss y Ex Ne E) as (H1 & H2 & H3 & H4 & H5). cbv zeta.
  split; [exact H4|]. split; [exact H2|]. split; [exact H1|]. rewrite H5.
  split; intros; [rewrite H|rewrite H]; reflexivity.
Qed.
Print Assumptions C26_fit.

(** a pre-processing step that raises: the DMD is not touched *)
Theorem C26_pre_error {V St B} (ops : base_ops V B) (o : obj V St B) args kw x e :
  layers o <> [] -> extract args kw = Ok x -> pre_chain (layers o) x = Err e ->
  snd (call_fit ops o args kw) = Err e /\ innermost (fst (call_fit ops o args kw)) = innermost o.
Proof. intros Ne Ex E. exact (fit_pre_error ops o args kw x e Ex E). Qed.
Print Assumptions C26_pre_error.

(** training data: the first positional argument, or the keyword X *)
Theorem C26_training_data {V} (args : list V) (kw : kwargs V) :
  (forall x r, args = x :: r -> extract args kw = Ok x) /\
  (args = [] -> forall x, lookup "X" kw = Some x -> extract args kw = Ok x).
Proof. split; intros; subst; simpl; auto. now rewrite H0. Qed.
Print Assumptions C26_training_data.

Theorem C26_missing_data {V St B} (ops : base_ops V B) (o : obj V St B) kw :
  layers o <> [] -> lookup "X" kw = None -> call_fit ops o [] kw = (o, Err ValueError).
Proof. exact (fit_missing ops o kw). Qed.
Print Assumptions C26_missing_data.

(** reconstructed_data after any history: the innermost reconstruction,
    post-processed inside-out with the states of the latest fit *)
Theorem C26_reconstructed {V St B} (ops : base_ops V B) (o : obj V St B) before args kw after x ss y :
  layers o <> [] -> extract args kw = Ok x -> pre_chain (layers o) x = Ok (ss, y) ->
  forallb (fun a => negb (is_fit a)) after = true ->
  let o' := history ops o (before ++ AFit args kw :: after) in
  same_rec (reconstructed ops o')
    (post_rec (post_chain (layers o) (map Some ss)) (b_rec ops (innermost o'))).
Proof. exact (latest_fit ops o before args kw after x ss y). Qed.
Print Assumptions C26_reconstructed.

(** steps that undo themselves give back the training data when the DMD does *)
Theorem C26_roundtrip {V St B} (ops : base_ops V B) (o : obj V St B) args kw x :
  layers o <> [] -> extract args kw = Ok x -> inverts (layers o) x ->
  (forall args' kw' y b, extract args' kw' = Ok y ->
     b_rec ops (fst (b_fit ops args' kw' b)) = RData (Ok y)) ->
  reconstructed ops (fst (call_fit ops o args kw)) = RData (Ok x).
Proof.
  intros Ne Ex I F. destruct (inverts_chain _ _ I) as (ss & y & E & R).
  pose proof (latest_fit ops o [] args kw [] x ss y Ne Ex E eq_refl) as S. simpl in S.
  destruct (fit_chain ops o args kw x ss y Ex Ne E) as (_ & _ & _ & H4 & _). cbv zeta in H4.
  rewrite H4, (F _ _ y) in S by (eapply extract_replace; eauto). simpl in S.
  destruct (reconstructed ops (fst (call_fit ops o args kw))); simpl in S; [|contradiction].
  now rewrite S, R.
Qed.
Print Assumptions C26_roundtrip.

(** all other attributes are those of the innermost DMD, whatever fits and mask
    assignments were made, unless they are assigned on the wrapper itself *)
Theorem C26_attributes {V St B} (ops : base_ops V B) (o : obj V St B) l name :
  Forall (fun d => d = []) (dicts o) ->
  forallb (fun a => match a with ASet _ _ => false | _ => true end) l = true ->
  getattr ops (history ops o l) name = b_get ops (innermost (history ops o l)) name.
Proof.
  intros H L. apply getattr_inner. rewrite dicts_no_set by auto. intros d I.
  rewrite Forall_forall in H. now rewrite (H d I).
Qed.
Print Assumptions C26_attributes.

(** the activation mask is read from and written to the innermost DMD *)
Theorem C26_bitmask {V St B} (ops : base_ops V B) (o : obj V St B) v :
  get_bitmask ops o = b_get ops (innermost o) "modes_activation_bitmask" /\
  innermost (fst (set_bitmask ops o v)) = fst (b_set ops (innermost o) "modes_activation_bitmask" v) /\
  snd (set_bitmask ops o v) = snd (b_set ops (innermost o) "modes_activation_bitmask" v) /\
  saved (fst (set_bitmask ops o v)) = saved o /\ layers (fst (set_bitmask ops o v)) = layers o.
Proof.
  destruct (set_bitmask_frame ops o v) as (H1 & H2 & H3 & H4 & H5).
  split; [apply bitmask_inner|]. auto.
Qed.
Print Assumptions C26_bitmask.

Theorem C26_none_refused {V St B} (p : pp V St) : wrap (B:=B) None p = Err ValueError.
Proof. reflexivity. Qed.

(** *** A concrete DMD on integers: fit stores its argument and refuses
    negative data; the reconstruction is what was stored *)
Definition toy : base_ops Z Z := mkBase
  (fun args kw b => match extract args kw with
                    | Ok x => if (x <? 0)%Z then (b, Err ValueError) else (x, Ok tt)
                    | Err e => (b, Err e) end)
  (fun b => RData (Ok b))
  (fun b n => if String.eqb n "svd_rank" then Ok b else Err AttributeError)
  (fun b n v => (b, Ok tt)).
(** subtract 10 and keep the difference; halve and keep the remainder *)
Definition shift10 : pp Z Z := mkPP (fun x => Ok (10, x - 10))%Z
  (fun s y => match s with Some k => Ok (y + k)%Z | None => Err TypeError end).
Definition halve : pp Z Z := mkPP (fun x => Ok (x mod 2, x / 2))%Z
  (fun s y => match s with Some k => Ok (2 * y + k)%Z | None => Err TypeError end).
Definition toyo : obj Z Z Z := OWrap shift10 None [] (OWrap halve None [] (OBase 0%Z)).

(** fit returns the innermost DMD, not the object it was called on: chaining
    .fit(X).reconstructed_data skips the post-processing *)
Theorem C26_fit_return_refuted : exists o', call_fit toy toyo [37%Z] [] = (o', Ok 2) /\
  reconstructed toy o' = RData (Ok 37%Z) /\ reconstructed toy (OBase (innermost o') : obj Z Z Z) = RData (Ok 13%Z).
Proof. eexists. split; [reflexivity|]. split; reflexivity. Qed.
Print Assumptions C26_fit_return_refuted.

(** a fit that fails inside leaves a mixture: the new state with the old DMD *)
Theorem C26_failed_fit_refuted : exists o1 o2, call_fit toy toyo [37%Z] [] = (o1, Ok 2) /\
  call_fit toy o1 [4%Z] [] = (o2, Err ValueError) /\
  innermost o2 = innermost o1 /\ reconstructed toy o1 = RData (Ok 37%Z) /\ reconstructed toy o2 = RData (Ok 36%Z).
Proof. do 2 eexists. repeat split; reflexivity. Qed.
Print Assumptions C26_failed_fit_refuted.

(** assigning any other attribute on the wrapper shadows the DMD's own, which
    keeps using the old value *)
Theorem C26_assignment_refuted : exists o', fst (setattr toy toyo "svd_rank" 7%Z) = o' /\
  getattr toy o' "svd_rank" = Ok 7%Z /\ b_get toy (innermost o') "svd_rank" = Ok 0%Z.
Proof. eexists. repeat split. Qed.
Print Assumptions C26_assignment_refuted.

(** examples *)
Example ex_C26_fit : pre_chain (layers toyo) 37%Z = Ok ([10; 1], 13)%Z /\
  extract [37%Z; 5%Z] [("Y", 6%Z)] = Ok 37%Z /\ layers toyo <> [] /\
  saved (fst (call_fit toy toyo [37%Z; 5%Z] [("Y", 6%Z)])) = [Some 10; Some 1]%Z.
Proof. repeat split; try discriminate; reflexivity. Qed.
Example ex_C26_roundtrip : reconstructed toy (fst (call_fit toy toyo [] [("Y", 5%Z); ("X", 37%Z)])) = RData (Ok 37%Z).
Proof. reflexivity. Qed.
Example ex_C26_inverts : forall x, inverts (layers toyo) x.
Proof.
  intros x. cbn. exists 10%Z, (x - 10)%Z. split; auto. split; [f_equal; lia|].
  eexists _, _. split; [reflexivity|]. split; [|exact I]. f_equal. symmetry. exact (Z.div_mod (x - 10) 2 ltac:(lia)).
Qed.
Example ex_C26_history : same_rec
  (reconstructed toy (history toy toyo [AFit [12%Z] []; ASet "color" 3%Z; AFit [] [("X", 37%Z)]; AMask 1%Z]))
  (post_rec (post_chain (layers toyo) [Some 10; Some 1]%Z) (RData (Ok 13%Z))).
Proof. reflexivity. Qed.
