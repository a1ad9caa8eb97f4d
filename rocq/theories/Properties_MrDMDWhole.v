(** * C23: modes, dynamics and eigs of the whole MrDMD *)
From Coq Require Import List ZArith Lia Bool Arith QArith.
From Verif Require Import Py Model_MrDMD Spec_MrDMD Proofs_MrDMD_Tree Proofs_MrDMD_Time Proofs_MrDMD_Fit Proofs_MrDMD Properties_MrDMD.
Import ListNotations.
Local Open Scope nat_scope.

Section Whole.
Context (W : vspace) (E cfg : Type) (leaf_fit : cfg -> list (vs_V W) -> result (list (mode W E))) (cycles : E -> Q).
Notation V := (vs_V W).
Notation K := (vs_K W).
Notation node := (node W E cfg).
Notation tree m := (mr_tree W E cfg m).
Notation mlevel m := (mr_max_level W E cfg m).
Notation vecs a := (map (md_vec W E) (nd_modes W E cfg a)).
Notation dyns a := (map (md_dyn W E) (nd_modes W E cfg a)).

Lemma over_levels_map {A B} (f : nat -> result A) (g : nat -> result B) (h : A -> B) ls l :
  over_levels f ls = Ok l -> (forall i x, In i ls -> f i = Ok x -> g i = Ok (h x)) -> over_levels g ls = Ok (map h l).
Proof.
  revert l; induction ls as [|i ls IH]; intros l H G; simpl in *; [inversion H; reflexivity|].
  destruct (f i) as [x|] eqn:Ef; [|discriminate]. cbn [bind] in H.
  destruct (over_levels f ls) as [r|]; [|discriminate]. cbn [bind] in H. inversion H; subst.
  rewrite (G i x) by auto. cbn [bind]. rewrite (IH r) by auto. reflexivity.
Qed.

Lemma level_recons_over t ls : level_recons W E cfg t ls = over_levels (level_recon W E cfg t) ls.
Proof. induction ls as [|i ls IH]; simpl; auto. now rewrite IH. Qed.

Lemma dot_app (HW : vspace_laws W) m1 m2 d1 d2 n : length m1 = length d1 ->
  dot W (m1 ++ m2) (d1 ++ d2) n = add_cols W (dot W m1 d1 n) (dot W m2 d2 n).
Proof.
  intros H. unfold dot, add_cols. fold (col W (m1 ++ m2) (d1 ++ d2)). fold (col W m1 d1). fold (col W m2 d2).
  induction (seq 0 n) as [|j l IH]; simpl; auto. rewrite IH. f_equal. now apply col_app.
Qed.
Lemma dot_nil n : dot W [] [] n = repeat (vs_zero W) n.
Proof. unfold dot. simpl. generalize 0. induction n; intros s; simpl; f_equal; auto. Qed.

Lemma sum_dot (HW : vspace_laws W) n bs :
  Forall (fun b : list V * list (list K) => length (fst b) = length (snd b)) bs ->
  sum_levels W (map (fun b => dot W (fst b) (snd b) n) bs) n = dot W (concat (map fst bs)) (concat (map snd bs)) n.
Proof.
  induction 1 as [|b bs Hb HF IH]; simpl; [now rewrite dot_nil|].
  rewrite IH, dot_app by auto. reflexivity.
Qed.

Lemma block_diag_length (l : list (list (list K) * nat)) : length (block_diag W l) = length (concat (map fst l)).
Proof.
  unfold block_diag. generalize 0 (fold_right (fun b s => snd b + s) 0 l).
  induction l as [|[rows n] l IH]; intros b a; simpl; auto.
  now rewrite !app_length, map_length, IH.
Qed.
Lemma block_diag_width (l : list (list (list K) * nat)) : Forall (fun b => Forall (fun r => length r = snd b) (fst b)) l ->
  forall b a, a = fold_right (fun b s => snd b + s) 0 l ->
  Forall (fun r => length r = b + a) (block_diag_from W b a l).
Proof.
  induction 1 as [|[rows n] l Hr HF IH]; intros b a Ha; simpl; auto. simpl in *. apply Forall_app. split.
  - apply Forall_forall. intros r Hi. apply in_map_iff in Hi. destruct Hi as (r' & <- & Hi).
    rewrite Forall_forall in Hr. rewrite !app_length, !repeat_length, (Hr r' Hi). lia.
  - assert (Ea : b + a = (b + n) + (a - n)) by lia. rewrite Ea. apply IH. lia.
Qed.

(** the nodes level by level *)
Lemma fit_nodes (HW : vspace_laws W) (m m' : mrdmd W E cfg) X R :
  leaf_fit_ok leaf_fit -> reachable leaf_fit cycles m -> mr_fit W E cfg leaf_fit cycles m X = (m', Ok R) ->
  exists nss, over_levels (fun l => map_nodes (tree m') (fun a => a) (partial_leaves l None)) (seq 0 (mlevel m' + 1)) = Ok nss /\
    Forall (fun ns => ns <> [] /\ Forall (wf_node W E cfg) ns) nss.
Proof.
  intros HO HI H. apply reachable_inv in HI.
  assert (L : forall l, l <= mlevel m' -> exists ns, map_nodes (tree m') (fun a => a) (partial_leaves l None) = Ok ns /\
     ns <> [] /\ Forall (wf_node W E cfg) ns).
  { intros l Hl. unfold partial_leaves, bt_leaves.
    assert (G : forall n s, s + n <= 2 ^ l ->
      exists ns, map_nodes (tree m') (fun a => a) (map (fun leaf => (l, leaf)) (seq s n)) = Ok ns /\
                 length ns = n /\ Forall (wf_node W E cfg) ns).
    { induction n as [|n IH]; intros s Hs; simpl; [exists []; auto|].
      destruct (fit_nodes_wf W E cfg leaf_fit cycles HW m X m' R l s HO HI H Hl) as (a & Ea & Wa); [lia|].
      destruct (IH (S s)) as (ns & En & Ln & Fn); [lia|].
      rewrite Ea. simpl. rewrite En. simpl. exists (a :: ns). simpl. auto. }
    destruct (G (2 ^ l) 0) as (ns & En & Ln & Fn); [lia|].
    exists ns. repeat split; auto. intros ->. simpl in Ln. pose proof (pow2_pos l). lia. }
  assert (G : forall n s, s + n <= mlevel m' + 1 -> exists nss,
    over_levels (fun l => map_nodes (tree m') (fun a => a) (partial_leaves l None)) (seq s n) = Ok nss /\
    Forall (fun ns => ns <> [] /\ Forall (wf_node W E cfg) ns) nss).
  { induction n as [|n IH]; intros s Hs; simpl; [exists []; auto|].
    destruct (L s) as (ns & En & Nn & Fn); [lia|]. destruct (IH (S s)) as (nss & Ens & Fns); [lia|].
    rewrite En. cbn [bind]. rewrite Ens. cbn [bind]. exists (ns :: nss). auto. }
  apply (G (mlevel m' + 1) 0). lia.
Qed.

Definition ms_of (ns : list node) : list (mode W E) := concat (map (nd_modes W E cfg) ns).
Definition blk (ns : list node) := map (fun a => (dyns a, nd_n W E cfg a)) ns.

Lemma concat_vecs ns : concat (map (fun a => vecs a) ns) = map (md_vec W E) (ms_of ns).
Proof. unfold ms_of. induction ns as [|a ns IH]; simpl; auto. now rewrite map_app, IH. Qed.
Lemma blk_length ns : length (block_diag W (blk ns)) = length (ms_of ns).
Proof.
  rewrite block_diag_length. unfold blk, ms_of. rewrite map_map. simpl.
  induction ns as [|a ns IH]; simpl; auto. now rewrite !app_length, map_length, IH.
Qed.
Lemma concatenate_ns {B} (f : node -> list B) ns : ns <> [] -> concatenate (map f ns) = Ok (concat (map f ns)).
Proof. destruct ns; [congruence|reflexivity]. Qed.

Lemma over_levels_Forall {A} (f : nat -> result A) ls l (P : A -> Prop) :
  over_levels f ls = Ok l -> Forall P l -> forall i, In i ls -> exists x, f i = Ok x /\ P x.
Proof.
  revert l; induction ls as [|i ls IH]; intros l H F j Hj; simpl in *; [tauto|].
  destruct (f i) as [x|] eqn:Ef; [|discriminate]. cbn [bind] in H.
  destruct (over_levels f ls) as [r|]; [|discriminate]. cbn [bind] in H. inversion H; subst. inversion F; subst.
  destruct Hj as [<-|Hj]; [eauto|]. eapply IH; eauto.
Qed.
Lemma over_levels_seq_nonnil {A} (f : nat -> result A) s n l : over_levels f (seq s (n + 1)) = Ok l -> l <> [].
Proof.
  rewrite Nat.add_1_r. simpl. destruct (f s); [|discriminate]. cbn [bind]. destruct (over_levels f _); [|discriminate].
  cbn [bind]. intros H. inversion H. discriminate.
Qed.

Lemma map_nodes_app {A B} (t : btree A) (f : A -> B) p q :
  map_nodes t f (p ++ q) = (let! x := map_nodes t f p in let! y := map_nodes t f q in Ok (x ++ y)).
Proof.
  induction p as [|a p IH]; simpl; [now destruct (map_nodes t f q)|].
  destruct (node_at t a); [|reflexivity]. cbn [bind]. rewrite IH. destruct (map_nodes t f p); [|reflexivity]. cbn [bind].
  now destruct (map_nodes t f q).
Qed.
Lemma map_nodes_flat {A} (t : btree A) ls l :
  over_levels (fun l => map_nodes t (fun a => a) (partial_leaves l None)) ls = Ok l ->
  map_nodes t (fun a => a) (flat_map (fun level => map (fun leaf => (level, leaf)) (bt_leaves level)) ls) = Ok (concat l).
Proof.
  revert l; induction ls as [|i ls IH]; intros l H; cbn [over_levels flat_map map_nodes] in *; [inversion H; reflexivity|].
  rewrite map_nodes_app. unfold partial_leaves in H at 1.
  destruct (map_nodes t (fun a => a) (map _ (bt_leaves i))) as [x|]; [|discriminate]. cbn [bind] in *.
  destruct (over_levels _ ls) as [r|]; [|discriminate]. cbn [bind] in H. inversion H; subst.
  rewrite (IH r eq_refl). reflexivity.
Qed.
Lemma map_slots_nodes {B} (t : btree node) (f : node -> B) ns :
  map (fun p => bt_get t (Z.of_nat (fst p)) (Z.of_nat (snd p))) (bt_nodes t) = map Ok (bt_iter t) ->
  map_nodes t (fun a => a) (bt_nodes t) = Ok ns -> map_slots W E cfg f (bt_iter t) = Ok (map f ns).
Proof.
  generalize (bt_nodes t) (bt_iter t). intros ps; revert ns; induction ps as [|p ps IH]; intros ns [|o os] H1 H2; simpl in *; try discriminate.
  - inversion H2; reflexivity.
  - inversion H1 as [[G1 G2]]. assert (G : node_at t p = match o with Some a => Ok a | None => Err AttributeError end) by (unfold node_at, bt_get_nat; now rewrite G1).
    rewrite G in H2.
    destruct o as [a|]; [|discriminate]. cbn [bind] in H2.
    destruct (map_nodes t (fun a => a) ps) as [r|]; [|discriminate]. cbn [bind] in H2. inversion H2; subst.
    rewrite (IH r os G2 eq_refl). reflexivity.
Qed.

(** After a fit, modes, dynamics and eigs list the active modes of all the nodes in the same order (level by level, left to
    right), one row of dynamics per mode and one column per snapshot, and modes @ dynamics is reconstructed_data. *)
Theorem C23_whole (HW : vspace_laws W) (m m' : mrdmd W E cfg) X R :
  leaf_fit_ok leaf_fit -> reachable leaf_fit cycles m -> mr_fit W E cfg leaf_fit cycles m X = (m', Ok R) ->
  exists ns ms D,
    map_nodes (tree m') (fun a => a) (bt_nodes (tree m')) = Ok ns /\ ms = concat (map (nd_modes W E cfg) ns) /\
    mr_modes W E cfg m' = Ok (map (md_vec W E) ms) /\ mr_eigs W E cfg m' = Ok (map (md_eig W E) ms) /\
    mr_dynamics W E cfg m' = Ok (D, length X) /\ length D = length ms /\ Forall (fun r => length r = length X) D /\
    mr_reconstructed W E cfg (tree m') = Ok (dot W (map (md_vec W E) ms) D (length X)).
Proof.
  intros HO HI H. destruct (fit_nodes HW m m' X R HO HI H) as (nss & En & Fn).
  destruct (C23_additive W E cfg leaf_fit cycles HW m m' X R HI H) as (L & EL & FL & _ & _ & ER & _).
  assert (HI' := HI). apply reachable_inv in HI'. pose proof (fit_inv W E cfg leaf_fit cycles m X HI') as (Inv & _).
  rewrite H in Inv. cbn [fst] in Inv. destruct Inv as (Wt & Dt & _).
  assert (Fl := over_levels_Forall _ _ _ _ En Fn).
  assert (Nn := over_levels_seq_nonnil _ _ _ _ En).
  assert (Em : over_levels (fun i => partial_modes W E cfg (tree m') i None) (seq 0 (mlevel m' + 1))
               = Ok (map (fun ns => map (md_vec W E) (ms_of ns)) nss)).
  { eapply over_levels_map; [exact En|]. intros i x Hi Hx. destruct (Fl i Hi) as (y & Hy & Ny & _).
    cbn beta in Hx, Hy; rewrite Hy in Hx; inversion Hx; subst y. unfold partial_modes. rewrite (map_nodes_map W E cfg _ _ _ x Hy). cbn [bind].
    rewrite concatenate_ns by auto. now rewrite concat_vecs. }
  set (wd := fun ns : list node => fold_right (fun b s => snd b + s) 0 (blk ns)).
  assert (Ed : over_levels (fun i => let! b := partial_blocks W E cfg (tree m') i None in
                                     let! d := partial_dynamics W E cfg (tree m') i None in
                                     Ok (d, fold_right (fun b s => snd b + s) 0 b)) (seq 0 (mlevel m' + 1))
               = Ok (map (fun ns => (block_diag W (blk ns), wd ns)) nss)).
  { eapply over_levels_map; [exact En|]. intros i x Hi Hx. destruct (Fl i Hi) as (y & Hy & Ny & _).
    cbn beta in Hx, Hy; rewrite Hy in Hx; inversion Hx; subst y. unfold partial_dynamics, partial_blocks.
    rewrite (map_nodes_map W E cfg _ _ _ x Hy). reflexivity. }
  assert (El : over_levels (level_recon W E cfg (tree m')) (seq 0 (mlevel m' + 1))
               = Ok (map (fun ns => dot W (map (md_vec W E) (ms_of ns)) (block_diag W (blk ns)) (wd ns)) nss)).
  { eapply over_levels_map; [exact En|]. intros i x Hi Hx. destruct (Fl i Hi) as (y & Hy & Ny & _).
    cbn beta in Hx, Hy; rewrite Hy in Hx; inversion Hx; subst y. apply in_seq in Hi.
    destruct (C23_partial_reconstruction W E cfg leaf_fit cycles HW m m' X R i HO HI H) as [<- _]; [lia|].
    unfold partial_reconstructed, partial_modes, partial_dynamics, partial_blocks.
    rewrite !(map_nodes_map W E cfg _ _ _ x Hy). cbn [bind]. rewrite concatenate_ns by auto. cbn [bind].
    now rewrite concat_vecs. }
  rewrite <- level_recons_over, EL in El. inversion El as [EL']. clear El.
  assert (Fw : Forall (fun ns => wd ns = length X) nss).
  { rewrite EL' in FL. apply Forall_map in FL. eapply Forall_impl; [|exact FL]. intros ns. simpl. now rewrite dot_length. }
  exists (concat nss), (ms_of (concat nss)), (concat (map (fun ns => block_diag W (blk ns)) nss)).
  assert (Eb : map_nodes (tree m') (fun a => a) (bt_nodes (tree m')) = Ok (concat nss)).
  { unfold bt_nodes, bt_levels. apply map_nodes_flat. rewrite Dt. exact En. }
  split; [exact Eb|]. split; [reflexivity|].
  assert (Hms : forall f : mode W E -> V, concat (map (fun ns => map f (ms_of ns)) nss) = map f (ms_of (concat nss))).
  { intros f. clear. unfold ms_of. induction nss as [|ns nss IH]; simpl; auto.
    now rewrite IH, map_app, concat_app, map_app. }
  split.
  { unfold mr_modes. rewrite Em. cbn [bind]. destruct nss; [congruence|]. unfold concatenate.
    cbn [map]. f_equal. exact (Hms (md_vec W E)). }
  split.
  { unfold mr_eigs. rewrite (map_slots_nodes (tree m') _ (concat nss)); [|apply (proj1 (C19_iteration _ _ Wt))|exact Eb].
    cbn [bind]. rewrite concatenate_ns.
    - f_equal. unfold node_eigs, ms_of. clear. induction (concat nss) as [|a l IH]; simpl; auto. now rewrite map_app, IH.
    - destruct nss as [|ns nss]; [congruence|]. inversion Fn as [|? ? [N _] _]; subst. destruct ns; [congruence|discriminate]. }
  split.
  { unfold mr_dynamics. rewrite Ed. cbn [bind]. destruct nss as [|ns nss]; [congruence|]. cbn [map].
    inversion Fw as [|? ? E0 Fw']; subst. rewrite map_map.
    replace (forallb _ _) with true.
    - cbn [map fst snd]. now rewrite E0.
    - symmetry. cbn [forallb snd]. rewrite Nat.eqb_refl. simpl. apply forallb_forall. intros [d w] Hi.
      apply in_map_iff in Hi. destruct Hi as (ns' & Hns & Hi). inversion Hns; subst. rewrite Forall_forall in Fw'.
      simpl. rewrite E0, (Fw' ns' Hi). apply Nat.eqb_refl. }
  split.
  { clear. unfold ms_of. induction nss as [|ns nss IH]; simpl; auto.
    rewrite app_length, blk_length, IH, map_app, concat_app, app_length. reflexivity. }
  split.
  { apply Forall_concat. apply Forall_map. apply Forall_forall. intros ns Hi. rewrite Forall_forall in Fw, Fn.
    assert (Ew := Fw ns Hi). unfold wd in Ew. destruct (Fn ns Hi) as [_ Fns]. rewrite <- Ew. unfold block_diag.
    apply (block_diag_width (blk ns)) with (b := 0); auto.
    unfold blk. apply Forall_map. eapply Forall_impl; [|exact Fns]. intros a Ha. simpl. now apply Forall_map. }
  rewrite ER. f_equal. rewrite EL'.
  rewrite <- (Hms (md_vec W E)).
  assert (Hs := sum_dot HW (length X) (map (fun ns => (map (md_vec W E) (ms_of ns), block_diag W (blk ns))) nss)).
  rewrite !map_map in Hs. simpl in Hs. rewrite <- Hs.
  - f_equal. apply map_ext_in. intros ns Hi. rewrite Forall_forall in Fw. now rewrite (Fw ns Hi).
  - apply Forall_map. apply Forall_forall. intros ns _. simpl. now rewrite map_length, blk_length.
Qed.
End Whole.
Print Assumptions C23_whole.

(** the run of C23_run_ex: seven nodes with one slow mode each *)
Example C23_whole_ex :
  mr_modes exW Q Z ex_m1 = Ok [1; 0; 31; 0; 7; 0; 68]%Z /\
  mr_eigs exW Q Z ex_m1 = Ok (repeat (1 # 100)%Q 7) /\
  mr_dynamics exW Q Z ex_m1 = Ok ([[1;1;1;1;1;1;1;1;1]; [1;1;1;1;1;0;0;0;0]; [0;0;0;0;0;1;1;1;1];
     [1;1;1;0;0;0;0;0;0]; [0;0;0;1;1;0;0;0;0]; [0;0;0;0;0;1;1;0;0]; [0;0;0;0;0;0;0;1;1]]%Z, 9).
Proof. vm_compute. repeat split. Qed.
