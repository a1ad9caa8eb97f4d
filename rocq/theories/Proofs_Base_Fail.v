(** Keys accepted by indexing (C03); failed and successful fits (C17, C18). *)
From Coq Require Import List ZArith Lia Bool String QArith.
From Verif Require Import Py Model_Base Spec_Base Proofs_Base_View Proofs_Base_Family Proofs_Base_Inv Proofs_Base_Share Proofs_Base_Copy.
Import ListNotations.
Local Open Scope nat_scope.
Local Notation length := List.length.

Section K.
Lemma norm_index_range n z : (exists i, norm_index n z = Some i) <-> in_range n z.
Proof.
  unfold norm_index, in_range.
  destruct (Z.leb_spec 0 z), (Z.ltb_spec z (Z.of_nat n)), (Z.leb_spec (- Z.of_nat n) z), (Z.ltb_spec z 0); simpl;
  split; intros H'; try lia; try (eexists; reflexivity); destruct H' as [? H']; discriminate.
Qed.
Lemma forallb_int l : forallb elem_is_int l = true <-> Forall is_int l.
Proof.
  rewrite forallb_forall, Forall_forall. split; intros H x Hx; specialize (H x Hx).
  - destruct x; simpl in H; try discriminate; [exists z|exists 0%Z; right]; eauto.
  - destruct H as (z & [-> |(b & ->)]); reflexivity.
Qed.
Lemma forallb_bool l : forallb elem_is_bool l = true <-> Forall is_bool l.
Proof.
  rewrite forallb_forall, Forall_forall. split; intros H x Hx; specialize (H x Hx).
  - destruct x; simpl in H; try discriminate. eexists; eauto.
  - destruct H as (b & ->); reflexivity.
Qed.
Lemma nodup_length_NoDup (l : list Z) : length (nodup Z.eq_dec l) = length l -> NoDup l.
Proof.
  induction l as [|a l IH]; simpl; [constructor|].
  destruct (in_dec Z.eq_dec a l) as [I|I]; simpl; intros H.
  - exfalso. assert (length (nodup Z.eq_dec l) <= length l).
    { clear. induction l as [|b l IH]; simpl; auto. destruct (in_dec _ _ _); simpl; lia. }
    lia.
  - constructor; auto.
Qed.
Lemma has_repeat_NoDup l : has_repeat l = false <-> NoDup l.
Proof.
  unfold has_repeat. rewrite negb_false_iff, Nat.eqb_eq. split.
  - apply nodup_length_NoDup.
  - intros H. now rewrite nodup_fixed_point.
Qed.
Lemma norm_all_range n l : (exists ps, norm_all n l = Ok ps) <-> Forall (in_range n) l.
Proof.
  induction l as [|z l IH]; simpl; [split; eauto|]. split.
  - intros (ps & H). destruct (norm_index n z) eqn:E; [|discriminate].
    destruct (norm_all n l) eqn:E2; [|discriminate].
    constructor; [apply norm_index_range; eauto|apply IH; eauto].
  - intros H. inversion H; subst. destruct (proj2 (norm_index_range n z) H2) as (i & ->).
    destruct (proj2 IH H3) as (ps & ->). simpl. eauto.
Qed.

Theorem fam_item_spec n k :
  match fam_item n k with
  | Ok m => key_type_ok k /\ key_range_ok n k /\ length m = n /\
            forall i, i < n -> (nth_error m i = Some true <-> key_selects n k i)
  | Err x => (x = ValueError /\ ~ key_type_ok k) \/
             (x = IndexError /\ key_type_ok k /\ ~ key_range_ok n k)
  end.
Proof.
  assert (G : match fam_item n k with
  | Ok m => key_type_ok k /\ key_range_ok n k
  | Err x => (x = ValueError /\ ~ key_type_ok k) \/
             (x = IndexError /\ key_type_ok k /\ ~ key_range_ok n k) end).
  { unfold fam_item. destruct k; simpl.
    - destruct (norm_index n z) eqn:E; simpl.
      + split; auto. apply norm_index_range; eauto.
      + right. repeat split; auto. rewrite <- norm_index_range. intros (i & ?); congruence.
    - auto.
    - unfold slice_positions, slice_step. destruct (sl_step s) as [z|].
      + destruct (Z.eqb_spec z 0) as [->|N]; simpl; [left; split; auto|split; auto; congruence].
      + simpl. split; auto. discriminate.
    - destruct (forallb elem_is_int l) eqn:Fi.
      2: { left. split; auto. rewrite <- forallb_int. intros [? _]; congruence. }
      destruct (has_repeat (map elem_val l)) eqn:Hr.
      { left. split; auto. intros [_ H]. apply has_repeat_NoDup in H. congruence. }
      assert (Ty : Forall is_int l /\ NoDup (map elem_val l))
        by (split; [now apply forallb_int|now apply has_repeat_NoDup]).
      destruct (forallb elem_is_bool l) eqn:Fb.
      + destruct (Nat.eqb_spec (length l) 0) as [L0|L0]; simpl.
        * assert (l = []) by (destruct l; simpl in L0; [auto|lia]). subst l. simpl.
          split; auto. right. split; auto. intros [? _]; auto.
        * assert (l <> []) by (intros ->; auto).
          assert (Fb' : Forall is_bool l) by now apply forallb_bool.
          destruct (Nat.eqb_spec (length l) n).
          -- split; auto.
          -- right. split; auto. split; auto. intros [(_ & _ & ?)|(Hn & _)]; auto.
      + rewrite andb_false_r. simpl.
        assert (Nb : ~ (l <> [] /\ Forall is_bool l)).
        { intros [_ H]. apply forallb_bool in H. congruence. }
        pose proof (norm_all_range n (map elem_val l)) as R. rewrite Forall_map in R.
        destruct (norm_all n (map elem_val l)) as [ps|x] eqn:E; simpl.
        * split; auto. right. split; auto. apply R. eauto.
        * right. apply norm_all_err in E as [-> _]. split; auto. split; auto.
          intros [(A & B & _)|(_ & B)]; [auto|]. apply R in B as (ps & ?). discriminate.
    - destruct (Nat.eqb_spec size 0); simpl.
      + destruct int_dtype; simpl; auto.
      + left; auto.
    - left; auto. }
  unfold fam_item in *. destruct (check_key k); auto.
  destruct (key_mask n k) as [m|] eqn:E; auto.
  destruct G. repeat split; auto; try apply (key_mask_spec n k m E i); auto.
  eapply key_mask_length; eauto.
Qed.
End K.

Section P.
Context {V : Type}.
Implicit Types (w : world V).

Lemma full_peek w s k : wf w -> fitted w s = true -> in_px s = None -> in_b s = None ->
  inst_wf w s ->
  peek_arr w s k = match k with
    | KModes => OArr (full w s KModes)
    | KEigs => match o_eigs (oper_of w s) with Some _ => OArr (full w s KEigs) | None => ORaise ValueError end
    | KAmps => ORaise AttributeError end.
Proof.
  intros W F P B Iw. unfold peek_arr, full. rewrite F, P. unfold alloc_check. rewrite B.
  destruct k; auto.
  - unfold fitted in F. destruct (o_modes (oper_of w s)); auto. discriminate.
  - destruct (o_eigs (oper_of w s)); auto.
Qed.

Definition reached_operator (f : fit_run V) : bool :=
  match f with CAmp _ _ _ _ | FitOk _ _ _ _ => true | _ => false end.

(** the instance after a failed fit *)
Lemma failed_state w i s f x : wf w -> nth_error (insts w) i = Some s -> crash_exn f = Some x ->
  let w' := fst (step w (Fit i f)) in
  snd (step w (Fit i f)) = ORaise x /\
  exists s', nth_error (insts w') i = Some s' /\ in_px s' = None /\ in_b s' = None /\ in_op s' = in_op s /\
    fitted w' s' = fitted w s || reached_operator f /\
    full w' s' KModes = match f with CAmp _ ms _ _ => ms | _ => full w s KModes end /\
    full w' s' KEigs = match f with CAmp _ _ es _ | CEig _ es _ => es | _ => full w s KEigs end /\
    (o_eigs (oper_of w' s') <> None <-> o_eigs (oper_of w s) <> None \/ match f with CAmp _ _ es _ | CEig _ es _ => True | _ => False end).
Proof.
  intros W I C. cbv zeta. pose proof (nth_error_wf _ _ _ W I) as (K0 & _).
  assert (Li : i < length (insts w)) by (apply nth_error_Some; congruence).
  unfold step. unfold with_inst, of_unit. rewrite I. cbn [fst snd].
  assert (O1 : forall w' s', opers w' = opers w -> in_op s' = in_op s -> oper_of w' s' = oper_of w s).
  { intros w' s' A B. unfold oper_of. congruence. }
  destruct f; simpl in C; try discriminate; injection C as <-; cbn -[full fitted oper_of].
  - split; auto. exists (reset s). rewrite nth_error_upd_eq by auto. repeat split; auto.
    + now rewrite orb_false_r.
    + intros [H|[]]; exact H.
  - split; auto. exists (with_snap (reset s) n). rewrite nth_error_upd_eq by auto. repeat split; auto.
    + now rewrite orb_false_r.
    + intros [H|[]]; exact H.
  - split; auto. exists (with_snap (reset s) n). rewrite nth_error_upd_eq by auto.
    set (w' := fit_eigs _ _ _).
    assert (O : oper_of w' (with_snap (reset s) n) = mkOper (o_modes (oper_of w s)) (Some (next w))).
    { unfold oper_of, w', fit_eigs. cbn. rewrite nth_upd_eq by auto. reflexivity. }
    assert (Hh : forall l, l < next w -> hget w' l = hget w l).
    { intros l Hl. unfold hget, w', fit_eigs. cbn. rewrite app_nth1; auto. }
    repeat split; auto.
    + unfold fitted. rewrite O. cbn. now rewrite orb_false_r.
    + unfold full. rewrite O. cbn [o_modes]. pose proof (wf_opers _ W _ (oper_of_In _ _ K0)) as [O2 _].
      destruct (o_modes (oper_of w s)) as [l|]; auto.
    + unfold full. rewrite O. cbn. unfold hget, w', fit_eigs. cbn.
      rewrite app_nth2 by (unfold next; cbn; lia). unfold next; cbn. now rewrite Nat.sub_diag.
    + intros _. rewrite O. discriminate.
  - split; auto. rewrite !nth_error_upd_eq by (rewrite ?length_upd; auto). eexists. split; [reflexivity|].
    set (s' := mkInst _ _ _ _ _ _). set (w' := set_inst _ _ _).
    assert (O : oper_of w' s' = mkOper (Some (S (next w))) (Some (next w))).
    { unfold oper_of, w', s'. cbn. rewrite nth_upd_eq by (rewrite length_upd; auto).
      unfold next; cbn. rewrite app_length; simpl. f_equal; f_equal; try lia. 
      unfold oper_of; cbn. rewrite nth_upd_eq by auto. reflexivity. }
    repeat split; auto.
    + unfold fitted. rewrite O. cbn. now rewrite orb_true_r.
    + unfold full. rewrite O. cbn. unfold hget, w'. cbn. rewrite <- app_assoc.
      rewrite app_nth2 by (unfold next; lia). 
      replace (S (next w) - List.length (heap w)) with 1 by (unfold next; lia). reflexivity.
    + unfold full. rewrite O. cbn. unfold hget, w'. cbn. rewrite <- app_assoc.
      rewrite app_nth2 by (unfold next; lia). 
      replace (next w - List.length (heap w)) with 0 by (unfold next; lia). reflexivity.
    + rewrite O. discriminate.
Qed.

Theorem failed_fit w i f x b : wf w -> fit_ok f -> crash_exn f = Some x ->
  snd (step w (Fitted i)) = OBool b ->
  let w' := fst (step w (Fit i f)) in
  let b' := b || reached_operator f in
  snd (step w (Fit i f)) = ORaise x /\
  snd (step w' (Fitted i)) = OBool b' /\
  snd (step w' (Get i KAmps)) = (if b' then ORaise AttributeError else ONone) /\
  snd (step w' (GetMask i)) = (if b' then ORaise AttributeError else ORaise RuntimeError) /\
  (forall v, exists y, snd (step w' (SetMask i v)) = ORaise y) /\
  (forall k, exists y, snd (step w' (GetItem i k)) = ORaise y).
Proof.
  intros W Fo C B. cbv zeta.
  destruct (nth_error (insts w) i) as [s|] eqn:I.
  2: { simpl in B. unfold with_inst in B. rewrite I in B. discriminate. }
  destruct (failed_state w i s f x W I C) as (A & s' & I' & P & Bn & Op & Fi & _).
  assert (W' : wf (fst (step w (Fit i f)))) by (apply wf_step; auto).
  set (w' := fst (step w (Fit i f))) in *. clearbody w'.
  assert (Eb : fitted w s = b). { simpl in B. unfold with_inst in B. rewrite I in B. cbn in B. congruence. }
  rewrite Eb in Fi. split; auto.
  assert (PM : peek_mask w' s' = if b || reached_operator f then Err AttributeError else Err RuntimeError).
  { unfold peek_mask. rewrite Fi, P, Bn. unfold alloc_check. rewrite Bn. reflexivity. }
  split; [|split; [|split; [|split]]].
  - simpl. unfold with_inst. rewrite I'. cbn. now rewrite Fi.
  - rewrite (proj1 (step_get_peek w' i s' KAmps I')). unfold peek_arr. rewrite Fi, P.
    unfold alloc_check. rewrite Bn. reflexivity.
  - simpl. unfold with_inst. rewrite I'. rewrite (get_mask_peek w' i s' I'). cbn [snd]. rewrite PM.
    destruct (_ || _); reflexivity.
  - intros v. simpl. unfold with_inst, of_unit, set_mask. rewrite I'.
    destruct (fitted w' s'); [|eexists; reflexivity]. destruct (mv_bool v); [|eexists; reflexivity].
    rewrite (get_mask_peek w' i s' I'). rewrite PM. destruct (_ || _); eexists; reflexivity.
  - intros k. simpl. unfold with_inst, getitem. rewrite I'.
    destruct (check_key k); [|eexists; reflexivity].
    rewrite (get_mask_peek w' i s' I'). rewrite PM. destruct (_ || _); eexists; reflexivity.
Qed.

Lemma Forall2_len {A B} (R : A -> B -> Prop) l l' : Forall2 R l l' -> length l = length l'.
Proof. induction 1; simpl; auto. Qed.

Lemma family_state n ms es bs os :
  length ms = length es -> length bs = length es -> Forall fam_op os -> Forall op_ok os ->
  exists F o3, FR ms es bs (fst (run (@empty_world V) (New :: Fit 0 (FitOk n ms es bs) :: os))) F o3.
Proof.
  intros L1 L2 Ff Fo. destruct (init_F ms es bs L1 L2 n) as (o3 & F0).
  rewrite !run_fst. rewrite !run_fst in F0. change (fst (run ?z [])) with z in F0.
  revert F0. generalize (fst (step (fst (step (@empty_world V) New)) (Fit 0 (FitOk n ms es bs)))).
  generalize ([repeat true (length es)]).
  induction os as [|o os IH]; intros F w H; [eauto|].
  inversion Ff; inversion Fo; subst. rewrite run_fst.
  pose proof (step_F ms es bs L1 L2 w F o3 o H) as S. destruct (step w o) as [w1 y]. destruct (fam_step ms es bs F o) as [F1 y'].
  destruct S; auto. cbn [fst]. eapply IH; eauto.
Qed.

(** C03 as seen by the client *)
Theorem getitem_result n ms es bs os i key :
  length ms = length es -> length bs = length es -> Forall fam_op os -> Forall op_ok os ->
  let N := length es in
  let w := fst (run (@empty_world V) (New :: Fit 0 (FitOk n ms es bs) :: os)) in
  let j := length (insts w) in
  i < j ->
  let r := snd (step w (GetItem i key)) in
  let w' := fst (step w (GetItem i key)) in
  (~ key_type_ok key -> r = ORaise ValueError) /\
  (key_type_ok key -> ~ key_range_ok N key -> r = ORaise IndexError) /\
  (key_type_ok key -> key_range_ok N key -> r = OInst j /\
     exists m, length m = N /\ (forall p, p < N -> (nth_error m p = Some true <-> key_selects N key p)) /\
       snd (step w' (GetMask j)) = OMask m /\
       forall k, snd (step w' (Get j k)) = OArr (sel m (table ms es bs k))) /\
  (forall i', i' < j -> observe w' i' = observe w i').
Proof.
  intros L1 L2 Ff Fo N w j Hi r w'.
  destruct (family_state n ms es bs os L1 L2 Ff Fo) as (F & o3 & H). fold w in H.
  assert (W : wf w).
  { apply (wf_reach (New :: Fit 0 (FitOk n ms es bs) :: os)). constructor; [exact Logic.I|constructor; [split; auto|auto]]. }
  assert (Lf : length F = j). { symmetry. eapply Forall2_len. exact (f_insts _ _ _ _ _ _ H). }
  pose proof (step_F ms es bs L1 L2 w F o3 (GetItem i key) H Logic.I Logic.I) as S.
  assert (Er : step w (GetItem i key) = (w', r)) by (unfold w', r; now destruct (step w (GetItem i key))).
  rewrite Er in S. clearbody w w' r.
  simpl in S. destruct (nth_error F i) as [mi|] eqn:Fi.
  2: { apply nth_error_None in Fi. lia. }
  pose proof (fam_item_spec N key) as K. fold N in S.
  assert (Fr : forall i', i' < j -> observe w' i' = observe w i').
  { intros i' Hi'. pose proof (getitem_frame w i key i' W Hi') as G. rewrite Er in G. exact G. }
  destruct (fam_item N key) as [m|x].
  - destruct K as (K1 & K2 & K3 & K4). destruct S as [-> S]. rewrite Lf.
    split; [tauto|]. split; [tauto|]. split; [|exact Fr]. intros _ _. split; auto.
    exists m. split; auto. split; auto.
    assert (Fj : nth_error (F ++ [m]) j = Some m) by (rewrite nth_error_app2, Lf, Nat.sub_diag; auto; lia).
    split.
    + pose proof (step_F ms es bs L1 L2 w' _ o3 (GetMask j) S Logic.I Logic.I) as S2.
      destruct (step w' (GetMask j)). cbn [fam_step] in S2. rewrite Fj in S2. apply S2.
    + intros k. pose proof (step_F ms es bs L1 L2 w' _ o3 (Get j k) S Logic.I Logic.I) as S2.
      destruct (step w' (Get j k)). cbn [fam_step] in S2. rewrite Fj in S2. apply S2.
  - destruct S as [-> S]. destruct K as [(-> & K)|(-> & K1 & K2)]; repeat split; auto; tauto.
Qed.

(** What stays visible after a failed refit, when nothing was edited in place. *)
Theorem failed_refit_shows n ms es bs os i f x :
  length ms = length es -> length bs = length es ->
  Forall fam_op os -> Forall op_ok os -> fit_ok f -> crash_exn f = Some x ->
  let w := fst (run (@empty_world V) (New :: Fit 0 (FitOk n ms es bs) :: os)) in
  i < length (insts w) ->
  let w' := fst (step w (Fit i f)) in
  snd (step w' (Fitted i)) = OBool true /\
  snd (step w' (Get i KModes)) = OArr (match f with CAmp _ ms' _ _ => ms' | _ => ms end) /\
  snd (step w' (Get i KEigs)) = OArr (match f with CAmp _ _ es' _ | CEig _ es' _ => es' | _ => es end).
Proof.
  intros L1 L2 Ff Fo Fok C w Li. cbv zeta.
  assert (W : wf w).
  { apply (wf_reach (New :: Fit 0 (FitOk n ms es bs) :: os)). constructor; [exact Logic.I|constructor; [split; auto|auto]]. }
  destruct (family_state n ms es bs os L1 L2 Ff Fo) as (F & o3 & H). fold w in H.
  destruct (nth_error (insts w) i) as [s|] eqn:I; [|apply nth_error_None in I; lia].
  destruct (failed_state w i s f x W I C) as (A & s' & I' & P & Bn & Op & Fi & Fm & Fe & Oe).
  assert (W' : wf (fst (step w (Fit i f)))) by (apply wf_step; auto).
  set (w' := fst (step w (Fit i f))) in *. clearbody w'.
  pose proof (Forall2_nth _ _ _ i (f_insts _ _ _ _ _ _ H)) as Ir. rewrite I in Ir.
  destruct (nth_error F i) as [mask|]; [|contradiction].
  assert (Op0 : in_op s = 0) by apply Ir.
  assert (Ow : oper_of w s = mkOper (Some (o3 KModes)) (Some (o3 KEigs))).
  { unfold oper_of. rewrite (f_opers _ _ _ _ _ _ H), Op0. reflexivity. }
  assert (Fs : fitted w s = true) by (unfold fitted; now rewrite Ow).
  rewrite Fs in Fi. simpl in Fi.
  pose proof (nth_error_wf _ _ _ W' I') as Iw.
  assert (FM : full w s KModes = ms).
  { unfold full. rewrite Ow. cbn. exact (f_tbl _ _ _ _ _ _ H KModes). }
  assert (FE : full w s KEigs = es).
  { unfold full. rewrite Ow. cbn. exact (f_tbl _ _ _ _ _ _ H KEigs). }
  rewrite FM in Fm. rewrite FE in Fe.
  split; [|split].
  - simpl. unfold with_inst. rewrite I'. cbn. now rewrite Fi.
  - rewrite (proj1 (step_get_peek w' i s' KModes I')), (full_peek w' s' KModes); auto. f_equal; auto.
  - rewrite (proj1 (step_get_peek w' i s' KEigs I')), (full_peek w' s' KEigs); auto.
    destruct (o_eigs (oper_of w' s')) eqn:Q; [f_equal; auto|].
    exfalso. assert (o_eigs (oper_of w s) <> None) by (rewrite Ow; discriminate).
    apply (proj2 Oe); auto.
Qed.

(** A successful fit erases every trace of what happened before. *)
Theorem refit_fresh w i n ms es bs : wf w -> i < length (insts w) ->
  length ms = length es -> length bs = length es ->
  let T := ODict [("t0", 0); ("tend", inject_Z (Z.of_nat n) - 1); ("dt", 1)]%string%Q in
  snd (step w (Fit i (FitOk n ms es bs))) = OUnit /\
  observe (fst (step w (Fit i (FitOk n ms es bs)))) i =
    [OBool true; OArr ms; OArr es; OArr bs; OMask (repeat true (length es)); T; T].
Proof.
  intros W Li L1 L2 T. destruct (nth_error (insts w) i) as [s|] eqn:I; [|apply nth_error_None in I; lia].
  pose proof (nth_error_wf _ _ _ W I) as (K0 & _).
  assert (W' : wf (fst (step w (Fit i (FitOk n ms es bs))))) by (apply wf_step; simpl; auto).
  assert (E : step w (Fit i (FitOk n ms es bs)) = (fst (fit w i s (FitOk n ms es bs)), OUnit)).
  { unfold step, with_inst, of_unit. rewrite I. reflexivity. }
  rewrite E in *. cbn [fst snd] in *. split; auto. unfold fit, init_time in *. cbv zeta in *. cbn [fst] in *.
  match goal with |- observe (set_inst ?A i ?B) i = _ => set (s' := B) in *; set (w' := set_inst A i s') in * end.
  assert (I' : nth_error (insts w') i = Some s').
  { unfold w'. cbn. rewrite nth_error_upd_eq; rewrite ?length_upd; auto. }
  assert (O : oper_of w' s' = mkOper (Some (S (next w))) (Some (next w))).
  { unfold oper_of, w', s'. cbn. rewrite nth_upd_eq by (rewrite length_upd; auto).
    unfold next; cbn. rewrite app_length; simpl. f_equal; f_equal; try lia. 
    unfold oper_of; cbn. rewrite nth_upd_eq by auto. reflexivity. }
  assert (Bs : in_b s' = Some (S (S (next w)))).
  { unfold s'. cbn. unfold next. cbn. rewrite !app_length. simpl. f_equal. lia. }
  assert (Hm : hget w' (S (next w)) = ms).
  { unfold hget, w', next. cbn. rewrite <- !app_assoc. rewrite app_nth2 by lia.
    replace (S (List.length (heap w)) - List.length (heap w)) with 1 by lia. reflexivity. }
  assert (He : hget w' (next w) = es).
  { unfold hget, w', next. cbn. rewrite <- !app_assoc. rewrite app_nth2 by lia.
    rewrite Nat.sub_diag. reflexivity. }
  assert (Hb : hget w' (S (S (next w))) = bs).
  { unfold hget, w', next. cbn. rewrite <- !app_assoc. rewrite app_nth2 by lia.
    replace (S (S (List.length (heap w))) - List.length (heap w)) with 2 by lia. reflexivity. }
  assert (Fi : fitted w' s' = true) by (unfold fitted; now rewrite O).
  assert (AC : alloc_check w' s' = Ok tt).
  { unfold alloc_check. rewrite Bs, O. cbn [o_modes o_eigs]. rewrite Hm, He, Hb, L1, L2, Nat.eqb_refl. reflexivity. }
  assert (D1 : dict_at w' (length (dicts w)) = mkDict true [("t0", 0); ("tend", inject_Z (Z.of_nat n) - 1); ("dt", 1)]%string%Q).
  { unfold dict_at, w'. cbn. rewrite <- app_assoc, app_nth2, Nat.sub_diag by lia. reflexivity. }
  assert (D2 : dict_at w' (S (length (dicts w))) = mkDict true [("t0", 0); ("tend", inject_Z (Z.of_nat n) - 1); ("dt", 1)]%string%Q).
  { unfold dict_at, w'. cbn. rewrite <- app_assoc, app_nth2 by lia.
    replace (S (length (dicts w)) - length (dicts w)) with 1 by lia. reflexivity. }
  rewrite (observe_peek w' i s' I').
  assert (Pk : forall k, peek_arr w' s' k = OArr (full w' s' k)).
  { intros k. unfold peek_arr, full. rewrite Fi, AC, Bs, O. cbn. destruct k; auto. }
  rewrite !Pk. unfold full. rewrite O, Bs. cbn [o_modes o_eigs]. rewrite Hm, He, Hb.
  rewrite Fi. unfold peek_mask. rewrite Fi, AC, Bs, O. cbn [o_eigs]. rewrite He.
  assert (Px : in_px s' = None) by reflexivity. rewrite Px.
  assert (T1 : in_ot s' = Some (length (dicts w))) by reflexivity.
  assert (T2 : in_dt s' = Some (S (length (dicts w)))) by reflexivity.
  unfold time_out, get_time. cbn [time_ref]. rewrite T1, T2, D1, D2. reflexivity.
Qed.
End P.
