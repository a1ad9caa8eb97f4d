(** * Refitting an MrDMD object *)
From Coq Require Import List ZArith Lia Bool Arith QArith.
From Verif Require Import Py Model_MrDMD Spec_MrDMD Proofs_MrDMD_Tree Proofs_MrDMD_Time
  Proofs_MrDMD_Fit Proofs_MrDMD.
Import ListNotations.
Local Open Scope nat_scope.

Section Refit.
Context (W : vspace) (E cfg : Type).
Context (leaf_fit : cfg -> list (vs_V W) -> result (list (mode W E))) (cycles : E -> Q).
Notation V := (vs_V W).
Notation node := (node W E cfg).
Notation mrdmd := (mrdmd W E cfg).
Notation tree := (mr_tree W E cfg).
Notation mlevel := (mr_max_level W E cfg).
Notation darg := (mr_dmd W E cfg).
Notation mcyc := (mr_max_cycles W E cfg).
Notation fit := (mr_fit W E cfg leaf_fit cycles).
Notation fitn := (fit_node W E cfg leaf_fit cycles).
Notation leaves := (fit_leaves W E cfg leaf_fit cycles).
Notation levels := (fit_levels W E cfg leaf_fit cycles).

(** same configurations everywhere, same sub-DMDs at the positions in [P] *)
Definition sim (P : nat * nat -> Prop) (t1 t2 : btree node) : Prop :=
  wf_tree t1 /\ wf_tree t2 /\ bt_depth t1 = bt_depth t2 /\
  forall p, address (bt_depth t1) p ->
    (P p -> bt_get_nat t1 p = bt_get_nat t2 p) /\
    (forall a, node_at t1 p = Ok a -> exists b, node_at t2 p = Ok b /\ nd_cfg W E cfg a = nd_cfg W E cfg b).

Lemma sim_upd (P : nat * nat -> Prop) (t1 t2 : btree node) q c :
  sim P t1 t2 -> address (bt_depth t1) q ->
  sim (fun p => P p \/ p = q)
    (mkTree (bt_depth t1) (upd (bt_slots t1) (nslot q) (Some c)))
    (mkTree (bt_depth t2) (upd (bt_slots t2) (nslot q) (Some c))).
Proof.
  intros (W1 & W2 & D & H) Hq. assert (Hq2 : address (bt_depth t2) q) by now rewrite <- D.
  split; [now apply wf_upd|]. split; [now apply wf_upd|]. split; [exact D|].
  intros p Hp. simpl in Hp. assert (Hp2 : address (bt_depth t2) p) by now rewrite <- D.
  destruct (prod_eq_dec_nat q p) as [<-|N].
  - split.
    + intros _. now rewrite !bt_get_upd_same.
    + intros a Ha. unfold node_at in Ha |- *. rewrite bt_get_upd_same in Ha |- * by assumption.
      simpl in Ha |- *. inversion Ha; subst. eauto.
  - split.
    + intros [HP|X]; [|congruence]. rewrite !bt_get_upd_other by auto. now apply (H p Hp).
    + intros a Ha. unfold node_at in Ha |- *. rewrite bt_get_upd_other in Ha |- * by auto.
      exact (proj2 (H p Hp) a Ha).
Qed.

Lemma sim_weaken (P P' : nat * nat -> Prop) t1 t2 :
  (forall p, P' p -> P p) -> sim P t1 t2 -> sim P' t1 t2.
Proof.
  intros HP (W1 & W2 & D & H). repeat split; auto; intros; apply (H p); auto.
Qed.

Lemma sim_leaves mc Xs : forall P (t1 t2 : btree node) level leaf t1',
  sim P t1 t2 -> level <= bt_depth t1 -> leaf + length Xs <= 2 ^ level ->
  leaves mc t1 level leaf Xs = (t1', Ok tt) ->
  exists t2', leaves mc t2 level leaf Xs = (t2', Ok tt) /\
    sim (fun p => P p \/ (fst p = level /\ leaf <= snd p < leaf + length Xs)) t1' t2' /\
    bt_depth t1' = bt_depth t1.
Proof.
  induction Xs as [|x Xs IH]; intros P t1 t2 level leaf t1' HS Hl Hle H; simpl in H |- *.
  - inversion H; subst. exists t2. split; auto. split; auto. eapply sim_weaken; [|exact HS].
    intros p [?|?]; [auto|lia].
  - simpl in Hle. assert (Ha : address (bt_depth t1) (level, leaf)) by (split; simpl; lia).
    assert (HS' := HS). destruct HS' as (W1 & W2 & D & G).
    destruct (node_at t1 (level, leaf)) as [a|e] eqn:Ea; [|discriminate]. cbn [bind] in H.
    destruct (proj2 (G _ Ha) a Ea) as (b & Eb & Ec). rewrite Eb. cbn [bind].
    assert (Ef : fitn mc a x = fitn mc b x) by (unfold fit_node; now rewrite Ec).
    rewrite <- Ef. destruct (fitn mc a x) as [a'|e]; [|discriminate]. cbn [bind] in H |- *.
    rewrite bt_set_valid in H by assumption. rewrite bt_set_valid by (auto; now rewrite <- D).
    destruct (IH _ _ _ level (S leaf) t1' (sim_upd P t1 t2 (level, leaf) a' HS Ha) Hl ltac:(lia) H)
      as (t2' & E2 & S2 & D2).
    exists t2'. split; auto. split; [|exact D2]. eapply sim_weaken; [|exact S2].
    intros [l k] [Hp|[Hp1 Hp2]]; simpl in *; [auto|]. subst l.
    destruct (Nat.eq_dec k leaf) as [->|]; [auto|]. right. lia.
Qed.

Lemma sim_levels mc n : forall P (t1 t2 : btree node) X s t1' R,
  sim P t1 t2 -> s + n = bt_depth t1 + 1 ->
  levels mc t1 X (seq s n) = (t1', Ok R) ->
  exists t2', levels mc t2 X (seq s n) = (t2', Ok R) /\
    sim (fun p => P p \/ s <= fst p) t1' t2' /\ bt_depth t1' = bt_depth t1.
Proof.
  induction n as [|n IH]; intros P t1 t2 X s t1' R HS Hs H; cbn [seq fit_levels] in H |- *.
  - inversion H; subst. exists t2. split; auto. split; auto.
    destruct HS as (W1 & W2 & D & G). repeat split; auto.
    + intros [HP|HP]; [apply (G p); auto|]. destruct H0. lia.
    + apply (G p); auto.
  - destruct (leaves mc t1 s 0 (array_split X (2 ^ s))) as [t1a [[]|e]] eqn:E1; [|discriminate].
    assert (L1 := E1).
    apply (sim_leaves mc _ P t1 t2) in E1; auto; [|lia|rewrite array_split_length; lia].
    destruct E1 as (t2a & E2 & S2 & D2). rewrite E2.
    assert (ER : level_recon W E cfg t1a s = level_recon W E cfg t2a s).
    { destruct S2 as (W1 & W2 & D & G).
      apply level_recon_ext; [exact D|lia|]. intros p Hp Hps.
      apply (G p Hp). right. rewrite array_split_length. destruct Hp as [_ Hp].
      rewrite <- Hps. lia. }
    rewrite <- ER. destruct (level_recon W E cfg t1a s) as [Y|e]; [|discriminate]. cbn [bind] in H |- *.
    destruct (sub_cols W X (map (vs_cast W) Y)) as [X'|e]; [|discriminate].
    destruct (IH _ t1a t2a X' (S s) t1' R S2 ltac:(lia) H) as (t2' & E3 & S3 & D3).
    exists t2'. split; auto. split; [|lia].
    destruct S3 as (W1 & W2 & D & G). repeat split; auto; [|apply (G p); auto].
    intros HP. apply (G p H0). destruct HP as [HP|HP]; [auto|].
    destruct (Nat.eq_dec (fst p) s) as [Ep|]; [|right; lia]. left. right.
    rewrite array_split_length. destruct H0 as [_ H0]. rewrite <- Ep. lia.
Qed.

Lemma sim_eq (t1 t2 : btree node) : sim (fun _ => True) t1 t2 -> t1 = t2.
Proof.
  intros (W1 & W2 & D & G). destruct t1 as [d1 s1], t2 as [d2 s2]; simpl in *. subst d2. f_equal.
  apply nth_error_ext. intros i. unfold wf_tree in W1, W2; simpl in W1, W2.
  destruct (Nat.lt_ge_cases i (bt_len d1)) as [Hi|Hi].
  - destruct (nslot_surj d1 i Hi) as (p & Hp & <-).
    destruct (G p Hp) as [G1 _]. specialize (G1 I).
    destruct (bt_get_valid (mkTree d1 s1) p W1 Hp) as (o1 & A1 & B1).
    destruct (bt_get_valid (mkTree d1 s2) p W2 Hp) as (o2 & A2 & B2). simpl in *. congruence.
  - assert (nth_error s1 i = None) as -> by (apply nth_error_None; lia).
    assert (nth_error s2 i = None) as -> by (apply nth_error_None; lia). reflexivity.
Qed.

(** a successful refit gives the object a fresh one would become, provided the
    fresh object is created with the depth the old one has now *)
Theorem refit_fresh c m X m' R m0 :
  inv W E cfg m -> darg m = DInstance cfg c ->
  mr_init W E cfg (DInstance cfg c) (mlevel m) (mcyc m) = Ok m0 ->
  fit m X = (m', Ok R) -> fit m0 X = (m', Ok R).
Proof.
  intros HI Hd H0 H. pose proof (init_inv W E cfg _ _ _ _ H0) as (I0 & M0 & D0 & C0).
  assert (F0 : full W E cfg m0).
  { unfold mr_init in H0.
    pose proof (build_full W E cfg c (mkMr W E cfg (DInstance cfg c) (mcyc m) (mlevel m) (bt_new (mlevel m)))) as B.
    destruct (build_tree _ _ _ _) as [mm [[]|e]]; [|discriminate]. inversion H0; subst mm.
    unfold full. rewrite M0. apply (B m0); reflexivity. }
  unfold mr_fit in *. destruct (length X <? 2); [discriminate|].
  assert (HC : exists m1 m2, clamp_level W E cfg m (length X) = (m1, Ok tt) /\
     clamp_level W E cfg m0 (length X) = (m2, Ok tt) /\
     sim (fun _ => False) (tree m1) (tree m2) /\ darg m1 = darg m2 /\ mcyc m1 = mcyc m2 /\ mlevel m1 = mlevel m2).
  { unfold clamp_level in *. rewrite M0.
    destruct (lvl_threshold (length X) <? Z.of_nat (mlevel m))%Z.
    - rewrite D0, C0, Hd in *. unfold build_tree in *. cbn [mr_dmd mr_max_level mr_max_cycles dmd_builder] in *.
      set (n := Z.to_nat (lvl_threshold (length X))) in *.
      pose proof (fill_cfg W E cfg (DInstance cfg c) n (fun _ _ => Ok c) (bt_nodes (@bt_new node n)) eq_refl (bt_new n) (wf_new n)) as FC.
      destruct (fill W E cfg (fun _ _ => Ok c) (bt_new n) (bt_nodes (bt_new n))) as [t r] eqn:EF.
      destruct r as [[]|e]; [|discriminate].
      eexists; eexists. split; [reflexivity|]. split; [reflexivity|]. simpl.
      repeat split; auto; try tauto.
      + apply FC; [|apply new_cfg]. apply Forall_forall. intros q Hq. now apply nodes_address in Hq.
      + apply FC; [|apply new_cfg]. apply Forall_forall. intros q Hq. now apply nodes_address in Hq.
      + intros a Ha. eauto.
    - exists m, m0. destruct HI as (A1 & A2 & A3). destruct I0 as (B1 & B2 & B3).
      repeat split; auto; try congruence; try tauto.
      + intros a Ha. destruct (F0 p) as [b Hb]; [rewrite M0, <- A2; auto|].
        exists b. split; auto. pose proof (A3 p a H1 Ha) as Q1.
        assert (Hp0 : address (bt_depth (tree m0)) p) by (rewrite B2, M0, <- A2; auto).
        pose proof (B3 p b Hp0 Hb) as Q2. rewrite Hd in Q1. rewrite D0 in Q2. simpl in *. congruence. }
  destruct HC as (m1 & m2 & E1 & E2 & HS & Hda & Hmc & Hml).
  rewrite E1 in H. rewrite E2.
  destruct (levels (mcyc m1) (tree m1) X (bt_levels (tree m1))) as [t r] eqn:EL.
  inversion H; subst m' r. clear H. unfold bt_levels in *.
  destruct (sim_levels _ _ _ _ (tree m2) _ _ _ _ HS (eq_refl (0 + (bt_depth (tree m1) + 1))) EL) as (t2 & E3 & S3 & D3).
  assert (bt_depth (tree m2) = bt_depth (tree m1)) as -> by (symmetry; apply HS).
  rewrite <- Hmc, E3. assert (t = t2) as ->.
  { apply sim_eq. eapply sim_weaken; [|exact S3]. intros; right; lia. }
  now rewrite Hda, Hml.
Qed.

Fixpoint fits (m : mrdmd) (Xs : list (list V)) : mrdmd :=
  match Xs with [] => m | X :: Xs' => fits (fst (fit m X)) Xs' end.

Theorem level_history Xs : forall m, inv W E cfg m ->
  mlevel (fits m Xs) =
  fold_left (fun l X => if length X <? 2 then l else effective_level l (length X)) Xs (mlevel m).
Proof.
  induction Xs as [|X Xs IH]; intros m HI; auto. simpl.
  destruct (fit_inv W E cfg leaf_fit cycles m X HI) as (I & _ & _ & ML). rewrite IH by assumption.
  now rewrite ML.
Qed.
End Refit.
