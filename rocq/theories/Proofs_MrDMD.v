(** * MrDMD objects: invariants, depth clamping, decomposition theorem, accessors *)
From Coq Require Import List ZArith Lia Bool Arith QArith.
From Verif Require Import Py Model_MrDMD Spec_MrDMD Proofs_MrDMD_Tree Proofs_MrDMD_Time Proofs_MrDMD_Fit.
Import ListNotations.
Local Open Scope nat_scope.

Lemma nth_error_ext {A} (l l' : list A) : (forall i, nth_error l i = nth_error l' i) -> l = l'.
Proof.
  revert l'; induction l as [|x l IH]; intros [|y l'] H; auto.
  - specialize (H 0); discriminate.
  - specialize (H 0); discriminate.
  - pose proof (H 0) as H0. simpl in H0. inversion H0; subst. f_equal. apply IH.
    intros i. exact (H (S i)).
Qed.

Section Obj.
Context (W : vspace) (E cfg : Type).
Context (leaf_fit : cfg -> list (vs_V W) -> result (list (mode W E))) (cycles : E -> Q).
Notation V := (vs_V W).
Notation K := (vs_K W).
Notation node := (node W E cfg).
Notation mrdmd := (mrdmd W E cfg).
Notation tree := (mr_tree W E cfg).
Notation mlevel := (mr_max_level W E cfg).
Notation darg := (mr_dmd W E cfg).
Notation mcyc := (mr_max_cycles W E cfg).
Notation fit := (mr_fit W E cfg leaf_fit cycles).
Notation fitn := (fit_node W E cfg leaf_fit cycles).
Notation leaves := (fit_leaves W E cfg leaf_fit cycles).
Notation levels := (fit_levels W E cfg leaf_fit cycles).

Definition cfg_inv (d : dmd_arg cfg) (t : btree node) : Prop :=
  forall p a, address (bt_depth t) p -> node_at t p = Ok a ->
              designates d (fst p) (snd p) (nd_cfg W E cfg a).

Definition inv (m : mrdmd) : Prop :=
  wf_tree (tree m) /\ bt_depth (tree m) = mlevel m /\ cfg_inv (darg m) (tree m).

Lemma node_at_upd_inv (t : btree node) q b p a :
  wf_tree t -> address (bt_depth t) q -> address (bt_depth t) p ->
  node_at (mkTree (bt_depth t) (upd (bt_slots t) (nslot q) (Some b))) p = Ok a ->
  (p = q /\ a = b) \/ node_at t p = Ok a.
Proof.
  intros Hw Hq Hp H. destruct (prod_eq_dec_nat p q) as [->|N].
  - left. split; auto. unfold node_at in H. rewrite bt_get_upd_same in H by assumption. simpl in H. congruence.
  - right. unfold node_at in *. rewrite bt_get_upd_other in H; auto.
Qed.

Lemma fit_leaves_cfg mc Xs d : forall (t : btree node) level leaf,
  wf_tree t -> level <= bt_depth t -> leaf + length Xs <= 2 ^ level ->
  cfg_inv d t ->
  wf_tree (fst (leaves mc t level leaf Xs)) /\ bt_depth (fst (leaves mc t level leaf Xs)) = bt_depth t /\
  cfg_inv d (fst (leaves mc t level leaf Xs)).
Proof.
  induction Xs as [|x Xs IH]; intros t level leaf Hw Hl Hle Hc; simpl; auto.
  simpl in Hle.
  assert (Ha : address (bt_depth t) (level, leaf)) by (split; simpl; lia).
  destruct (node_at t (level, leaf)) as [a|e] eqn:Ea; simpl; auto.
  destruct (fitn mc a x) as [a'|e] eqn:Ef; simpl; auto.
  rewrite bt_set_valid by assumption.
  set (t1 := mkTree (bt_depth t) (upd (bt_slots t) (nslot (level, leaf)) (Some a'))).
  apply (IH t1 level (S leaf)); [apply wf_upd; auto|exact Hl|lia|].
  intros p b Hp Hb. apply node_at_upd_inv in Hb; auto. destruct Hb as [[-> ->]|Hb]; [|apply Hc; auto].
  assert (nd_cfg W E cfg a' = nd_cfg W E cfg a) as ->; [|apply Hc; auto].
  unfold fit_node in Ef. destruct (length x <? 2); [discriminate|].
  destruct (leaf_fit _ x); simpl in Ef; [|discriminate]. inversion Ef; reflexivity.
Qed.

Lemma fit_levels_cfg mc d ls : forall (t : btree node) X,
  wf_tree t -> Forall (fun l => l <= bt_depth t) ls -> cfg_inv d t ->
  wf_tree (fst (levels mc t X ls)) /\ bt_depth (fst (levels mc t X ls)) = bt_depth t /\
  cfg_inv d (fst (levels mc t X ls)).
Proof.
  induction ls as [|l ls IH]; intros t X Hw HF Hc; simpl; auto.
  inversion HF as [|x y Hl HF']; subst.
  destruct (fit_leaves_cfg mc (array_split X (2 ^ l)) d t l 0) as (W1 & D1 & C1); auto.
  { rewrite array_split_length. lia. }
  destruct (leaves mc t l 0 (array_split X (2 ^ l))) as [t1 [[]|e]]; simpl in *; auto.
  destruct (let! newX := level_recon W E cfg t1 l in _) as [X'|e]; simpl; auto.
  destruct (IH t1 X') as (W2 & D2 & C2); auto.
  - now rewrite D1.
  - repeat split; auto. congruence.
Qed.

Lemma new_cfg d n : cfg_inv d (@bt_new node n).
Proof.
  intros p a Hp H. destruct (bt_get_valid (@bt_new node n) p (wf_new n) Hp) as (o & E1 & E2).
  simpl in E1. apply nth_error_In, repeat_spec in E1. subst o.
  unfold node_at in H. rewrite E2 in H. discriminate.
Qed.

Lemma fill_cfg d ml f ps :
  dmd_builder cfg d ml = Ok f -> forall (t : btree node),
  wf_tree t -> Forall (address (bt_depth t)) ps -> cfg_inv d t ->
  wf_tree (fst (fill W E cfg f t ps)) /\ bt_depth (fst (fill W E cfg f t ps)) = bt_depth t /\
  cfg_inv d (fst (fill W E cfg f t ps)).
Proof.
  intros Hf. induction ps as [|q ps IH]; intros t Hw HF Hc; simpl; auto.
  inversion HF as [|x y Hq HF']; subst.
  destruct (f (fst q) (snd q)) as [c|e] eqn:Ef; simpl; auto.
  rewrite bt_set_valid by assumption.
  apply (IH (mkTree (bt_depth t) (upd (bt_slots t) (nslot q) (Some (mkNode W E cfg c 0 []))))).
  - apply wf_upd; auto.
  - exact HF'.
  - intros p b Hp Hb. apply node_at_upd_inv in Hb; auto. destruct Hb as [[-> ->]|Hb]; [|apply Hc; auto].
    simpl. destruct d; simpl in *; try discriminate.
    + inversion Hf; subst. exact Ef.
    + destruct (length l =? ml + 1); [|discriminate]. inversion Hf; subst.
      destruct (nth_error l (fst q)); inversion Ef; reflexivity.
    + inversion Hf; subst. inversion Ef; reflexivity.
Qed.

Lemma build_inv m : inv (fst (build_tree W E cfg m)) /\
  mlevel (fst (build_tree W E cfg m)) = mlevel m /\ darg (fst (build_tree W E cfg m)) = darg m /\
  mcyc (fst (build_tree W E cfg m)) = mcyc m.
Proof.
  unfold build_tree.
  destruct (dmd_builder cfg (darg m) (mlevel m)) as [f|e] eqn:Ef; simpl.
  - destruct (fill_cfg (darg m) (mlevel m) f (bt_nodes (@bt_new node (mlevel m))) Ef (bt_new (mlevel m)))
      as (H1 & H2 & H3).
    + apply wf_new.
    + apply Forall_forall. intros p Hp. now apply nodes_address in Hp.
    + apply new_cfg.
    + destruct (fill W E cfg f _ _) as [t r]; simpl in *. repeat split; auto.
  - repeat split; auto; [apply wf_new|apply new_cfg].
Qed.

Lemma init_inv d ml mc m : mr_init W E cfg d ml mc = Ok m ->
  inv m /\ mlevel m = ml /\ darg m = d /\ mcyc m = mc.
Proof.
  unfold mr_init. pose proof (build_inv (mkMr W E cfg d mc ml (bt_new ml))) as B.
  destruct (build_tree _ _ _ _) as [m' [u|e]]; intros H; inversion H; subst. exact B.
Qed.

Lemma clamp_inv m T : inv m ->
  inv (fst (clamp_level W E cfg m T)) /\
  mlevel (fst (clamp_level W E cfg m T)) =
    (if (lvl_threshold T <? Z.of_nat (mlevel m))%Z then Z.to_nat (lvl_threshold T) else mlevel m) /\
  darg (fst (clamp_level W E cfg m T)) = darg m /\ mcyc (fst (clamp_level W E cfg m T)) = mcyc m.
Proof.
  intros H. unfold clamp_level. destruct (Z.ltb_spec (lvl_threshold T) (Z.of_nat (mlevel m))).
  - apply (build_inv (mkMr W E cfg (darg m) (mcyc m) (Z.to_nat (lvl_threshold T)) (tree m))).
  - simpl; auto.
Qed.

Lemma threshold_nonneg T : 2 <= T -> (0 <= lvl_threshold T)%Z.
Proof.
  intros H. unfold lvl_threshold, trunc_log2_quarter.
  destruct (Nat.leb_spec 4 T); [lia|]. destruct (Nat.eqb_spec T 3); [lia|].
  destruct (Nat.eqb_spec T 2); [lia|]. lia.
Qed.

Lemma clamp_level_min m T : 2 <= T -> inv m ->
  mlevel (fst (clamp_level W E cfg m T)) = effective_level (mlevel m) T.
Proof.
  intros HT H. destruct (clamp_inv m T H) as (_ & -> & _). unfold effective_level.
  pose proof (threshold_nonneg T HT).
  destruct (Z.ltb_spec (lvl_threshold T) (Z.of_nat (mlevel m))); lia.
Qed.

Lemma fit_inv m X : inv m -> inv (fst (fit m X)) /\
  darg (fst (fit m X)) = darg m /\ mcyc (fst (fit m X)) = mcyc m /\
  mlevel (fst (fit m X)) = if length X <? 2 then mlevel m else effective_level (mlevel m) (length X).
Proof.
  intros H. unfold mr_fit. destruct (Nat.ltb_spec (length X) 2) as [L|L]; simpl; auto.
  pose proof (clamp_inv m (length X) H) as (I & _ & D & M). pose proof (clamp_level_min m (length X) L H) as E1.
  destruct (clamp_level W E cfg m (length X)) as [m' [u|e]]; simpl in *; auto.
  destruct I as (I1 & I2 & I3).
  destruct (fit_levels_cfg (mcyc m') (darg m') (bt_levels (tree m')) (tree m') X) as (A & B & C); auto.
  { apply Forall_forall. intros l Hl. apply in_seq in Hl. lia. }
  destruct (levels (mcyc m') (tree m') X (bt_levels (tree m'))) as [t r]. simpl in *.
  repeat split; auto. simpl. congruence.
Qed.

Lemma reachable_inv m : reachable leaf_fit cycles m -> inv m.
Proof.
  induction 1 as [d ml mc m H|m X H IH].
  - now apply init_inv in H.
  - now apply fit_inv.
Qed.

(** ** the decomposition theorem *)
Theorem fit_chain (HW : vspace_laws W) m X m' R :
  inv m -> fit m X = (m', Ok R) ->
  exists Rs : nat -> list V, Rs 0 = X /\ Rs (mlevel m' + 1) = R /\
    forall l, l <= mlevel m' ->
      (exists Y, level_recon W E cfg (tree m') l = Ok Y /\ length Y = length X /\
                 length (Rs (S l)) = length X /\
                 Rs l = add_cols W (Rs (S l)) (map (vs_cast W) Y)) /\
      (forall k, k < 2 ^ l -> exists c b ms,
         designates (darg m) l k c /\
         nth_error (array_split (Rs l) (2 ^ l)) k = Some b /\ 2 <= length b /\
         leaf_fit c b = Ok ms /\
         node_at (tree m') (l, k) =
           Ok (mkNode W E cfg c (length b)
                 (filter (slow W E cycles (mcyc m / inject_Z (Z.of_nat (length b)))) ms))).
Proof.
  intros HI H. unfold mr_fit in H. destruct (Nat.ltb_spec (length X) 2) as [L|L]; [discriminate|].
  pose proof (clamp_inv m (length X) HI) as (I & _ & D & M).
  destruct (clamp_level W E cfg m (length X)) as [m1 [u|e]]; [|discriminate]. cbn [fst] in *.
  destruct (levels (mcyc m1) (tree m1) X (bt_levels (tree m1))) as [t r] eqn:EL.
  inversion H; subst m' r. clear H. cbn [mr_tree mr_max_level].
  destruct I as (I1 & I2 & I3).
  unfold bt_levels in EL. apply (fit_levels_spec W HW) in EL; auto.
  destruct EL as (W' & D' & _ & Rs & R0 & Rn & Lv).
  exists Rs. rewrite <- I2. split; [auto|]. split; [auto|].
  assert (HL : forall l, l <= bt_depth (tree m1) + 1 -> length (Rs l) = length X).
  { induction l as [|l IHl]; intros Hl; [congruence|].
    destruct (Lv l) as [(Y & _ & _ & L2 & _) _]; [lia|]. rewrite L2. apply IHl. lia. }
  intros l Hl. destruct (Lv l) as [(Y & Y1 & Y2 & Y3 & Y4) LB]; [lia|]. simpl in Y1. split.
  - exists Y. rewrite (HL l) in Y2, Y3 by lia. auto.
  - intros k Hk. destruct (LB k Hk) as (a & b & ms & B1 & B2 & B3 & B4 & B5). simpl in *.
    exists (nd_cfg W E cfg a), b, ms. rewrite <- M. repeat split; auto.
    rewrite <- D. apply (I3 (l, k)); auto. split; simpl; auto.
Qed.

(** ** sums *)
Lemma add_cols_length (X Y : list V) : length X = length Y -> length (add_cols W X Y) = length X.
Proof. intros H. unfold add_cols. rewrite map_length, combine_length. lia. Qed.

Lemma add_cols_nth (X Y : list V) i : length X = length Y ->
  nth_error (add_cols W X Y) i =
  match nth_error X i, nth_error Y i with Some x, Some y => Some (vs_add W x y) | _, _ => None end.
Proof.
  revert Y i; induction X as [|x X IH]; intros [|y Y] [|i] H; simpl in *; try discriminate; auto.
  unfold add_cols in *. rewrite IH by lia. reflexivity.
Qed.

Lemma add_cols_assoc (HW : vspace_laws W) X Y Z :
  add_cols W X (add_cols W Y Z) = add_cols W (add_cols W X Y) Z.
Proof.
  revert Y Z; induction X as [|x X IH]; intros [|y Y] [|z Z]; auto.
  unfold add_cols in *; simpl. f_equal; [apply (law_assoc _ HW)|apply IH].
Qed.

Lemma add_cols_comm (HW : vspace_laws W) X Y : add_cols W X Y = add_cols W Y X.
Proof.
  revert Y; induction X as [|x X IH]; intros [|y Y]; auto.
  unfold add_cols in *; simpl. f_equal; [apply (law_comm _ HW)|apply IH].
Qed.

Lemma add_cols_zero (HW : vspace_laws W) X : add_cols W (repeat (vs_zero W) (length X)) X = X.
Proof.
  induction X as [|x X IH]; auto. unfold add_cols in *; simpl. f_equal; [apply (law_zero _ HW)|apply IH].
Qed.

Lemma chain_sum (n : nat) : forall s (Rs : nat -> list V) (L : list (list V)),
  length L = n ->
  (forall i, i < n -> exists Y, nth_error L i = Some Y /\ Rs (s + i) = add_cols W (Rs (S (s + i))) Y) ->
  Rs s = sum_cols W (Rs (s + n)) L.
Proof.
  induction n as [|n IH]; intros s Rs L HL H.
  - destruct L; [|discriminate]. simpl. now rewrite Nat.add_0_r.
  - destruct L as [|Y L]; [discriminate|]. simpl.
    destruct (H 0) as (Y0 & E0 & E1); [lia|]. simpl in E0. inversion E0; subst Y0.
    rewrite Nat.add_0_r in E1. rewrite E1. f_equal.
    replace (s + S n) with (S s + n) by lia. apply IH; [simpl in HL; lia|].
    intros i Hi. destruct (H (S i)) as (Y' & E' & E''); [lia|]. exists Y'. simpl in E'.
    replace (S s + i) with (s + S i) by lia. auto.
Qed.

Lemma level_recons_nth (t : btree node) ls L :
  level_recons W E cfg t ls = Ok L ->
  length L = length ls /\
  forall i l, nth_error ls i = Some l -> exists Y, nth_error L i = Some Y /\ level_recon W E cfg t l = Ok Y.
Proof.
  revert L; induction ls as [|l ls IH]; intros L H; simpl in H.
  - inversion H; subst. split; auto. intros [|i] ?; discriminate.
  - destruct (level_recon W E cfg t l) as [Y|] eqn:EY; [|discriminate]. simpl in H.
    destruct (level_recons W E cfg t ls) as [r|] eqn:Er; [|discriminate]. simpl in H.
    inversion H; subst. destruct (IH r eq_refl) as [A B]. split; [simpl; congruence|].
    intros [|i] x Hx; simpl in *; [|auto]. inversion Hx; subst. eauto.
Qed.

Lemma level_recons_ok (t : btree node) ls :
  (forall l, In l ls -> exists Y, level_recon W E cfg t l = Ok Y) ->
  exists L, level_recons W E cfg t ls = Ok L.
Proof.
  induction ls as [|l ls IH]; intros H; simpl; eauto.
  destruct (H l) as [Y EY]; [simpl; auto|]. destruct IH as [L EL]; [intros; apply H; simpl; auto|].
  rewrite EY, EL. simpl. eauto.
Qed.

Lemma sum_levels_sum (HW : vspace_laws W) L n : Forall (fun Y => length Y = n) L ->
  length (sum_levels W L n) = n /\
  forall R, length R = n -> add_cols W (sum_levels W L n) R = sum_cols W R L.
Proof.
  induction 1 as [|Y L HY HF IH]; simpl.
  - split; [apply repeat_length|]. intros R HR. subst n. now apply add_cols_zero.
  - destruct IH as [IL IH]. split.
    + rewrite map_length, combine_length. lia.
    + intros R HR. change (map _ (combine Y (sum_levels W L n))) with (add_cols W Y (sum_levels W L n)).
      rewrite <- add_cols_assoc, IH by assumption. apply add_cols_comm; auto.
Qed.

Theorem fit_sum (HW : vspace_laws W) m X m' R :
  inv m -> fit m X = (m', Ok R) ->
  exists L, level_recons W E cfg (tree m') (seq 0 (mlevel m' + 1)) = Ok L /\
    Forall (fun Y => length Y = length X) L /\ length R = length X /\
    X = sum_cols W R (map (map (vs_cast W)) L) /\
    mr_reconstructed W E cfg (tree m') = Ok (sum_levels W L (length X)) /\
    ((forall v, vs_cast W v = v) -> X = add_cols W (sum_levels W L (length X)) R).
Proof.
  intros HI H. destruct (fit_chain HW m X m' R HI H) as (Rs & R0 & Rn & Lv).
  destruct (level_recons_ok (tree m') (seq 0 (mlevel m' + 1))) as [L EL].
  { intros l Hl. apply in_seq in Hl. destruct (Lv l) as [(Y & EY & _) _]; [lia|]. eauto. }
  destruct (level_recons_nth _ _ _ EL) as [LL LN]. rewrite seq_length in LL.
  assert (LN' : forall i, i < mlevel m' + 1 -> exists Y, nth_error L i = Some Y /\ length Y = length X /\
                 Rs i = add_cols W (Rs (S i)) (map (vs_cast W) Y)).
  { intros i Hi. destruct (LN i i) as (Y & E1 & E2).
    { rewrite (nth_error_nth' _ 0) by (rewrite seq_length; lia). f_equal. now rewrite seq_nth. }
    destruct (Lv i) as [(Y' & EY & L1 & _ & EQ) _]; [lia|]. assert (Y' = Y) by congruence. subst Y'.
    exists Y. auto. }
  assert (HF : Forall (fun Y => length Y = length X) L).
  { apply Forall_forall. intros Y HY. apply In_nth_error in HY. destruct HY as [i Hi].
    destruct (LN' i) as (Y' & E1 & E2 & _); [rewrite <- LL; apply nth_error_Some; congruence|]. congruence. }
  assert (HR : length R = length X).
  { destruct (Lv (mlevel m')) as [(Y & _ & _ & L2 & _) _]; [lia|]. rewrite <- Rn, Nat.add_1_r. exact L2. }
  assert (HS : X = sum_cols W R (map (map (vs_cast W)) L)).
  { rewrite <- R0, <- Rn. apply (chain_sum (mlevel m' + 1) 0); [now rewrite map_length|].
    intros i Hi. destruct (LN' i Hi) as (Y & E1 & _ & E3). exists (map (vs_cast W) Y).
    rewrite nth_error_map, E1. simpl. auto. }
  assert (HD : bt_depth (tree m') = mlevel m').
  { pose proof (fit_inv m X HI) as (I & _). rewrite H in I. apply I. }
  exists L. repeat split; auto.
  - unfold mr_reconstructed, bt_levels. rewrite HD, EL. cbn [bind].
    destruct L as [|Y L]; [simpl in LL; lia|].
    inversion HF as [|x y HY HF']; subst.
    assert (forallb (fun y => length y =? length Y) (Y :: L) = true) as ->.
    { apply forallb_forall. intros y Hy. apply Nat.eqb_eq. rewrite HY.
      rewrite Forall_forall in HF. auto. }
    now rewrite HY.
  - intros Hc. rewrite (proj2 (sum_levels_sum HW L (length X) HF)) by assumption.
    rewrite HS at 1. f_equal. rewrite <- (map_id L) at 2. apply map_ext.
    intros Y. rewrite <- (map_id Y) at 2. now apply map_ext.
Qed.

(** ** partial accessors *)
Definition col (modes : list V) (dyn : list (list K)) (j : nat) : V :=
  vsum W (map (fun mr => vs_smul W (nth j (snd mr) (vs_kzero W)) (fst mr)) (combine modes dyn)).

Lemma vsum_app (HW : vspace_laws W) l1 l2 : vsum W (l1 ++ l2) = vs_add W (vsum W l1) (vsum W l2).
Proof.
  induction l1 as [|x l1 IH]; simpl; [now rewrite (law_zero _ HW)|].
  now rewrite IH, (law_assoc _ HW).
Qed.

Lemma combine_app {A B} (l1 l2 : list A) (m1 m2 : list B) :
  length l1 = length m1 -> combine (l1 ++ l2) (m1 ++ m2) = combine l1 m1 ++ combine l2 m2.
Proof. revert m1; induction l1; intros [|b m1] H; simpl in *; try discriminate; auto. f_equal. auto. Qed.

Lemma col_app (HW : vspace_laws W) m1 m2 d1 d2 j : length m1 = length d1 ->
  col (m1 ++ m2) (d1 ++ d2) j = vs_add W (col m1 d1 j) (col m2 d2 j).
Proof. intros H. unfold col. now rewrite combine_app, map_app, vsum_app. Qed.

Lemma add_zero_r (HW : vspace_laws W) x : vs_add W x (vs_zero W) = x.
Proof. rewrite (law_comm _ HW). apply (law_zero _ HW). Qed.

Lemma col_zero (HW : vspace_laws W) modes dyn j :
  (forall r, In r dyn -> nth j r (vs_kzero W) = vs_kzero W) -> col modes dyn j = vs_zero W.
Proof.
  revert dyn; induction modes as [|v modes IH]; intros [|r dyn] H; try reflexivity.
  unfold col in *. simpl. rewrite H by (simpl; auto). rewrite (law_smul0 _ HW), (law_zero _ HW).
  apply IH. intros; apply H; simpl; auto.
Qed.

Lemma nth_padded b (r : list K) a j :
  nth j (repeat (vs_kzero W) b ++ r ++ repeat (vs_kzero W) a) (vs_kzero W) =
  if (b <=? j) && (j <? b + length r) then nth (j - b) r (vs_kzero W) else vs_kzero W.
Proof.
  assert (R : forall n i, nth i (repeat (vs_kzero W) n) (vs_kzero W) = vs_kzero W).
  { induction n; intros [|i]; simpl; auto. }
  destruct (Nat.leb_spec b j); simpl.
  - rewrite app_nth2; rewrite repeat_length; [|lia].
    destruct (Nat.ltb_spec j (b + length r)).
    + apply app_nth1. lia.
    + rewrite app_nth2 by lia. apply R.
  - rewrite app_nth1 by (rewrite repeat_length; lia). apply R.
Qed.

Lemma col_shift modes rows b a n j :
  Forall (fun r => length r = n) rows -> b <= j < b + n ->
  col modes (map (fun r => repeat (vs_kzero W) b ++ r ++ repeat (vs_kzero W) a) rows) j
  = col modes rows (j - b).
Proof.
  intros HF Hj. unfold col. f_equal.
  revert modes; induction HF as [|r rows Hr HF IH]; intros [|v modes]; simpl; auto.
  f_equal; auto. rewrite nth_padded.
  destruct (Nat.leb_spec b j); [|lia]. destruct (Nat.ltb_spec j (b + length r)); [|lia]. reflexivity.
Qed.

(** a block: modes, dynamics rows, number of columns *)
Definition wf_block (b : list V * list (list K) * nat) : Prop :=
  length (fst (fst b)) = length (snd (fst b)) /\ Forall (fun r => length r = snd b) (snd (fst b)).

Lemma dot_block_diag (HW : vspace_laws W) bs : Forall wf_block bs -> forall b a,
  map (fun j => col (concat (map (fun x => fst (fst x)) bs))
                    (block_diag_from W b a (map (fun x => (snd (fst x), snd x)) bs)) j)
      (seq b (fold_right (fun x s => snd x + s) 0 bs))
  = concat (map (fun x => dot W (fst (fst x)) (snd (fst x)) (snd x)) bs)
  /\ forall j, j < b -> col (concat (map (fun x => fst (fst x)) bs))
                    (block_diag_from W b a (map (fun x => (snd (fst x), snd x)) bs)) j = vs_zero W.
Proof.
  induction 1 as [|[[ms rows] n] bs [Hl Hr] HF IH]; intros b a; [split; auto|].
  simpl in *. destruct (IH (b + n) (a - n)) as [I1 I2].
  assert (HC : forall j, col (ms ++ concat (map (fun x => fst (fst x)) bs))
      (map (fun r => repeat (vs_kzero W) b ++ r ++ repeat (vs_kzero W) (a - n)) rows ++
       block_diag_from W (b + n) (a - n) (map (fun x => (snd (fst x), snd x)) bs)) j
    = vs_add W (col ms (map (fun r => repeat (vs_kzero W) b ++ r ++ repeat (vs_kzero W) (a - n)) rows) j)
        (col (concat (map (fun x => fst (fst x)) bs))
             (block_diag_from W (b + n) (a - n) (map (fun x => (snd (fst x), snd x)) bs)) j)).
  { intros j. apply col_app; auto. now rewrite map_length. }
  assert (HZ : forall j, j < b \/ b + n <= j ->
    col ms (map (fun r => repeat (vs_kzero W) b ++ r ++ repeat (vs_kzero W) (a - n)) rows) j = vs_zero W).
  { intros j Hj. apply col_zero; auto. intros r' Hr'. apply in_map_iff in Hr'.
    destruct Hr' as (r & <- & Hi). rewrite Forall_forall in Hr. rewrite nth_padded, (Hr r Hi).
    destruct (Nat.leb_spec b j); destruct (Nat.ltb_spec j (b + n)); auto. lia. }
  split.
  - rewrite seq_app, map_app. f_equal.
    + unfold dot. 
      transitivity (map (fun j => col ms rows (j - b)) (seq b n)).
      * apply map_ext_in. intros j Hj. apply in_seq in Hj. rewrite HC, I2 by lia.
        rewrite (col_shift _ _ _ _ n) by (auto; lia). now rewrite add_zero_r.
      * assert (G : forall n' s, map (fun j => col ms rows (j - b)) (seq (b + s) n')
                    = map (col ms rows) (seq s n')).
        { induction n' as [|n' IHn]; intros s; simpl; auto. f_equal; [f_equal; lia|].
          rewrite <- IHn. f_equal. f_equal. lia. }
        specialize (G n 0). rewrite Nat.add_0_r in G. exact G.
    + rewrite <- I1. apply map_ext_in. intros j Hj. apply in_seq in Hj.
      rewrite HC, HZ by lia. now rewrite (law_zero _ HW).
  - intros j Hj. rewrite HC, HZ, I2 by lia. now rewrite (law_zero _ HW).
Qed.

Definition wf_node (a : node) : Prop :=
  Forall (fun m => length (md_dyn _ _ m) = nd_n W E cfg a) (nd_modes W E cfg a).

Lemma map_nodes_map {B} (t : btree node) (f : node -> B) ps l :
  map_nodes t (fun a => a) ps = Ok l -> map_nodes t f ps = Ok (map f l).
Proof.
  revert l; induction ps as [|p ps IH]; intros l H; simpl in *.
  - inversion H; reflexivity.
  - destruct (node_at t p) as [a|]; [|discriminate]. simpl in *.
    destruct (map_nodes t (fun a => a) ps) as [r|]; [|discriminate]. simpl in H. inversion H; subst.
    rewrite (IH r eq_refl). reflexivity.
Qed.

Lemma partial_recon_eq (HW : vspace_laws W) (t : btree node) level nd l :
  map_nodes t (fun a => a) (partial_leaves level nd) = Ok l -> l <> [] ->
  Forall wf_node l ->
  partial_reconstructed W E cfg t level nd = Ok (concat (map (node_recon W E cfg) l)).
Proof.
  intros H Hl HF. unfold partial_reconstructed, partial_modes, partial_dynamics, partial_blocks.
  rewrite !(map_nodes_map t _ _ l H). cbn [bind].
  set (bs := map (fun a => (map (md_vec W E) (nd_modes W E cfg a), map (md_dyn W E) (nd_modes W E cfg a), nd_n W E cfg a)) l).
  assert (E1 : concatenate (map (fun a => map (md_vec W E) (nd_modes W E cfg a)) l)
               = Ok (concat (map (fun x => fst (fst x)) bs))).
  { subst bs. rewrite map_map. simpl. destruct l; [congruence|reflexivity]. }
  rewrite E1. cbn [bind]. f_equal.
  assert (E2 : map (fun a => (map (md_dyn W E) (nd_modes W E cfg a), nd_n W E cfg a)) l
               = map (fun x => (snd (fst x), snd x)) bs).
  { subst bs. rewrite map_map. reflexivity. }
  rewrite E2.
  assert (E3 : forall bs : list (list V * list (list K) * nat),
     fold_right (fun b s => snd b + s) 0 (map (fun x => (snd (fst x), snd x)) bs)
     = fold_right (fun x s => snd x + s) 0 bs).
  { clear. induction bs; simpl; auto. }
  unfold block_diag. rewrite E3.
  assert (HB : Forall wf_block bs).
  { subst bs. apply Forall_forall. intros x Hx. apply in_map_iff in Hx. destruct Hx as (a & <- & Ha).
    rewrite Forall_forall in HF. specialize (HF a Ha). split; simpl; [now rewrite !map_length|].
    apply Forall_forall. intros r Hr. apply in_map_iff in Hr. destruct Hr as (m & <- & Hm).
    unfold wf_node in HF. rewrite Forall_forall in HF. auto. }
  destruct (dot_block_diag HW bs HB 0 (fold_right (fun x s => snd x + s) 0 bs)) as [G _].
  unfold dot at 1. fold (col (concat (map (fun x => fst (fst x)) bs))).
  etransitivity; [exact G|]. subst bs. rewrite map_map. reflexivity.
Qed.

Lemma fit_nodes_wf (HW : vspace_laws W) m X m' R l k :
  leaf_fit_ok leaf_fit -> inv m -> fit m X = (m', Ok R) -> l <= mlevel m' -> k < 2 ^ l ->
  exists a, node_at (tree m') (l, k) = Ok a /\ wf_node a.
Proof.
  intros HO HI H Hl Hk. destruct (fit_chain HW m X m' R HI H) as (Rs & _ & _ & Lv).
  destruct (Lv l Hl) as [_ LB]. destruct (LB k Hk) as (c & b & ms & _ & _ & _ & Hf & Hn).
  eexists. split; [exact Hn|]. unfold wf_node; simpl. specialize (HO _ _ _ Hf).
  apply Forall_forall. intros x Hx. apply filter_In in Hx. rewrite Forall_forall in HO. apply HO. tauto.
Qed.

Theorem partial_level (HW : vspace_laws W) m X m' R l :
  leaf_fit_ok leaf_fit -> inv m -> fit m X = (m', Ok R) -> l <= mlevel m' ->
  partial_reconstructed W E cfg (tree m') l None = level_recon W E cfg (tree m') l /\
  forall k, k < 2 ^ l -> exists a, node_at (tree m') (l, k) = Ok a /\
    partial_reconstructed W E cfg (tree m') l (Some k) = Ok (node_recon W E cfg a).
Proof.
  intros HO HI H Hl. split.
  - assert (G : exists ns, map_nodes (tree m') (fun a => a) (partial_leaves l None) = Ok ns /\ ns <> [] /\ Forall wf_node ns).
    { unfold partial_leaves, bt_leaves.
      assert (G : forall n, n <= 2 ^ l -> forall s, s + n <= 2 ^ l ->
        exists ns, map_nodes (tree m') (fun a => a) (map (fun leaf => (l, leaf)) (seq s n)) = Ok ns /\
                   length ns = n /\ Forall wf_node ns).
      { induction n as [|n IH]; intros Hn s Hs; simpl; [exists []; auto|].
        destruct (fit_nodes_wf HW m X m' R l s HO HI H Hl) as (a & Ea & Wa); [lia|].
        destruct (IH ltac:(lia) (S s)) as (ns & En & Ln & Fn); [lia|].
        rewrite Ea. simpl. rewrite En. simpl. exists (a :: ns). simpl. auto. }
      destruct (G (2 ^ l) (le_n _) 0) as (ns & En & Ln & Fn); [lia|].
      exists ns. repeat split; auto. intros ->. simpl in Ln. pose proof (pow2_pos l). lia. }
    destruct G as (ns & En & Nn & Fn). rewrite (partial_recon_eq HW _ _ _ ns En Nn Fn).
    unfold level_recon. unfold partial_leaves in En. rewrite (map_nodes_map _ _ _ ns En). cbn [bind].
    destruct ns; [congruence|reflexivity].
  - intros k Hk. destruct (fit_nodes_wf HW m X m' R l k HO HI H Hl Hk) as (a & Ea & Wa).
    exists a. split; auto. rewrite (partial_recon_eq HW _ _ _ [a]).
    + simpl. now rewrite app_nil_r.
    + unfold partial_leaves. simpl. rewrite Ea. reflexivity.
    + discriminate.
    + auto.
Qed.

(** ** three snapshots *)
Lemma fit_three m X : inv m -> length X = 3 -> 1 <= mlevel m -> is_ok (snd (fit m X)) = false.
Proof.
  intros HI HX Hm. destruct (fit m X) as [m' r] eqn:EF. destruct r as [R|e]; [|reflexivity]. exfalso.
  pose proof (fit_inv m X HI) as (I & _ & _ & ML). rewrite EF, HX in ML. cbn [fst Nat.ltb Nat.leb] in ML.
  unfold effective_level in ML. change (Z.to_nat (lvl_threshold 3)) with 1 in ML.
  unfold mr_fit in EF. rewrite HX in EF. cbn [Nat.ltb Nat.leb] in EF.
  pose proof (clamp_inv m 3 HI) as (I1 & ML1 & D & M).
  destruct (clamp_level W E cfg m 3) as [m1 [u|e]] eqn:EC; [|discriminate]. cbn [fst] in *.
  destruct (levels (mcyc m1) (tree m1) X (bt_levels (tree m1))) as [t r] eqn:EL.
  inversion EF; subst m' r. cbn [mr_max_level] in ML. clear EF ML1.
  destruct I1 as (W1 & D1 & C1).
  assert (Hd : bt_depth (tree m1) = 1) by lia.
  unfold bt_levels in EL. rewrite Hd in EL. change (seq 0 (1 + 1)) with [0; 1] in EL.
  cbn [fit_levels] in EL. change (2 ^ 0) with 1 in EL. change (2 ^ 1) with 2 in EL.
  destruct (leaves (mcyc m1) (tree m1) 0 0 (array_split X 1)) as [t1 [[]|e1]] eqn:E1; [|discriminate].
  assert (L := E1). apply fit_leaves_spec in L; [|assumption|lia|rewrite array_split_length; simpl; lia].
  destruct L as (Wt1 & Dt1 & _).
  destruct (level_recon W E cfg t1 0) as [Y|] eqn:EY; [|discriminate]. cbn [bind] in EL.
  destruct (sub_cols W X (map (vs_cast W) Y)) as [X'|] eqn:EX; [|discriminate].
  assert (HX' : length X' = 3).
  { unfold sub_cols in EX. destruct (Nat.eqb_spec (length X) (length (map (vs_cast W) Y))); [|discriminate].
    inversion EX. rewrite map_length, combine_length. lia. }
  destruct (leaves (mcyc m1) t1 1 0 (array_split X' 2)) as [t2 [[]|e2]] eqn:E2; [|discriminate].
  apply fit_leaves_spec in E2; [|assumption|lia|rewrite array_split_length; simpl; lia].
  destruct E2 as (_ & _ & _ & F2).
  destruct (F2 eq_refl 1 (block X' 2 1)) as (a & a' & _ & F & _).
  { apply array_split_nth; lia. }
  unfold fit_node in F. rewrite block_length in F by lia. rewrite HX' in F. discriminate.
Qed.

(** fits that succeed have at least two snapshots in every leaf *)
Lemma fit_width m X l k : inv m -> 4 <= length X ->
  l <= mlevel (fst (fit m X)) -> k < 2 ^ l ->
  exists b, nth_error (array_split X (2 ^ l)) k = Some b /\ 2 <= length b.
Proof.
  intros HI HX Hl Hk. destruct (fit_inv m X HI) as (_ & _ & _ & ML). rewrite ML in Hl.
  destruct (Nat.ltb_spec (length X) 2); [lia|]. unfold effective_level in Hl.
  apply leaf_width; auto. apply threshold_width; auto.
  pose proof (threshold_nonneg (length X)). lia.
Qed.

(** with four snapshots or more, one sub-DMD for all nodes and leaf fits that
    accept every block of two columns, the fit cannot fail *)
Definition total_leaf_fit : Prop := forall c x, 2 <= length x -> exists ms, leaf_fit c x = Ok ms.

Lemma fit_leaves_total mc Xs : forall (t : btree node) level leaf,
  total_leaf_fit -> wf_tree t -> level <= bt_depth t -> leaf + length Xs <= 2 ^ level ->
  (forall p, address (bt_depth t) p -> exists a, node_at t p = Ok a) ->
  Forall (fun x => 2 <= length x) Xs ->
  exists t', leaves mc t level leaf Xs = (t', Ok tt) /\
    (forall p, address (bt_depth t) p -> exists a, node_at t' p = Ok a).
Proof.
  induction Xs as [|x Xs IH]; intros t level leaf HT Hw Hl Hle HN HF; simpl.
  - exists t. auto.
  - simpl in Hle. inversion HF as [|y z Hx HF']; subst.
    assert (Ha : address (bt_depth t) (level, leaf)) by (split; simpl; lia).
    destruct (HN _ Ha) as [a Ea]. rewrite Ea. cbn [bind].
    unfold fit_node. destruct (Nat.ltb_spec (length x) 2); [lia|].
    destruct (HT (nd_cfg W E cfg a) x Hx) as [ms Em]. rewrite Em. cbn [bind].
    rewrite bt_set_valid by assumption.
    set (a' := mkNode W E cfg _ _ _).
    destruct (IH (mkTree (bt_depth t) (upd (bt_slots t) (nslot (level, leaf)) (Some a'))) level (S leaf)) as (t' & E1 & E2); auto.
    + now apply wf_upd.
    + simpl. lia.
    + intros p Hp. destruct (prod_eq_dec_nat (level, leaf) p) as [<-|N].
      * exists a'. apply get_node_at. now apply bt_get_upd_same.
      * destruct (HN p Hp) as [b Eb]. exists b. rewrite <- Eb. apply node_at_ext.
        apply bt_get_upd_other; auto.
    + exists t'. auto.
Qed.

Lemma dot_length ms rows n : length (dot W ms rows n) = n.
Proof. unfold dot. now rewrite map_length, seq_length. Qed.

Lemma fit_levels_total (HW : vspace_laws W) mc n : forall s (t : btree node) X,
  total_leaf_fit -> wf_tree t -> s + n = bt_depth t + 1 -> 2 * 2 ^ bt_depth t <= length X ->
  (forall p, address (bt_depth t) p -> exists a, node_at t p = Ok a) ->
  exists t' R, levels mc t X (seq s n) = (t', Ok R).
Proof.
  induction n as [|n IH]; intros s t X HT Hw Hs HX HN; simpl; eauto.
  assert (H2s : 2 * 2 ^ s <= length X).
  { assert (2 ^ s <= 2 ^ bt_depth t) by (apply Nat.pow_le_mono_r; lia). lia. }
  pose proof (pow2_pos s) as P.
  destruct (fit_leaves_total mc (array_split X (2 ^ s)) t s 0) as (t1 & E1 & N1); auto; [lia| | |].
  { rewrite array_split_length. lia. }
  { apply Forall_forall. intros x Hx. apply In_nth_error in Hx. destruct Hx as [i Hi].
    assert (i < 2 ^ s) by (rewrite <- (array_split_length X (2 ^ s)); apply nth_error_Some; congruence).
    destruct (leaf_width X s i H2s H) as (b & Eb & Lb). congruence. }
  rewrite E1. assert (L := E1). apply fit_leaves_spec in L; auto; [|lia|rewrite array_split_length; lia].
  destruct L as (W1 & D1 & S1 & F1). specialize (F1 eq_refl).
  assert (HY : exists Y, level_recon W E cfg t1 s = Ok Y /\ length Y = length X).
  { unfold level_recon. 
    destruct (map_nodes_ok t1 (node_recon W E cfg) (map (fun leaf => (s, leaf)) (bt_leaves s)) W1) as (l & El & _).
    { apply Forall_forall. intros p Hp. apply in_map_iff in Hp. destruct Hp as (k & <- & Hk).
      unfold bt_leaves in Hk. apply in_seq in Hk. split; simpl; lia. }
    { intros p Hp. apply N1. now rewrite <- D1. }
    rewrite El. cbn [bind]. destruct (map_nodes_inv _ _ _ _ El) as [Ll Ln].
    rewrite map_length in Ll. unfold bt_leaves in Ll. rewrite seq_length in Ll.
    exists (concat l). split; [destruct l; [simpl in Ll; lia|reflexivity]|].
    rewrite <- (array_split_concat X (2 ^ s)) by assumption. rewrite !concat_length. f_equal.
    apply nth_error_ext. intros i. rewrite !nth_error_map.
    destruct (Nat.lt_ge_cases i (2 ^ s)) as [Hi|Hi].
    - rewrite array_split_nth by assumption. simpl.
      destruct (Ln i (s, i)) as (a & Ea & Na).
      { rewrite nth_error_map. unfold bt_leaves.
        rewrite (nth_error_nth' _ 0) by (rewrite seq_length; lia). rewrite seq_nth by assumption. reflexivity. }
      rewrite Na. simpl. f_equal. unfold node_recon. rewrite dot_length.
      destruct (F1 i _ (array_split_nth X (2 ^ s) i P Hi)) as (b & b' & _ & Fb & Eb). simpl in Eb.
      assert (b' = a) by congruence. subst b'.
      unfold fit_node in Fb. destruct (length (block X (2 ^ s) i) <? 2); [discriminate|].
      destruct (leaf_fit _ _); simpl in Fb; [|discriminate]. inversion Fb. reflexivity.
    - assert (nth_error l i = None) as -> by (apply nth_error_None; lia).
      assert (nth_error (array_split X (2 ^ s)) i = None) as ->
        by (apply nth_error_None; rewrite array_split_length; lia). reflexivity. }
  destruct HY as (Y & EY & LY). rewrite EY. cbn [bind].
  unfold sub_cols. rewrite map_length, LY, Nat.eqb_refl.
  apply IH; auto; [lia| |].
  - rewrite map_length, combine_length, map_length, D1. lia.
  - intros p Hp. apply N1. now rewrite <- D1.
Qed.

Lemma build_full c m m' : darg m = DInstance cfg c -> build_tree W E cfg m = (m', Ok tt) ->
  forall p, address (mlevel m) p -> exists a, node_at (tree m') p = Ok a.
Proof.
  intros Hd H p Hp. unfold build_tree in H. rewrite Hd in H. cbn [dmd_builder] in H.
  destruct (fill W E cfg _ _ _) as [t r] eqn:EF. inversion H; subst m' r. cbn [mr_tree].
  apply fill_spec in EF; [|apply wf_new|].
  - destruct EF as (_ & _ & G). destruct (G eq_refl p) as [G1 _].
    destruct G1 as (c' & _ & Hn); [|eauto]. now apply nodes_address.
  - apply Forall_forall. intros q Hq. now apply nodes_address in Hq.
Qed.

Lemma fill_instance c ps : forall (t : btree node),
  wf_tree t -> Forall (address (bt_depth t)) ps ->
  snd (fill W E cfg (fun _ _ => Ok c) t ps) = Ok tt.
Proof.
  induction ps as [|p ps IH]; intros t Hw HF; simpl; auto.
  inversion HF as [|x y Hp HF']; subst. rewrite bt_set_valid by assumption.
  apply IH; [now apply wf_upd|exact HF'].
Qed.

Lemma build_instance c m : darg m = DInstance cfg c -> snd (build_tree W E cfg m) = Ok tt.
Proof.
  intros Hd. unfold build_tree. rewrite Hd. cbn [dmd_builder].
  pose proof (fill_instance c (bt_nodes (@bt_new node (mlevel m))) (bt_new (mlevel m)) (wf_new _)) as F.
  destruct (fill W E cfg _ _ _) as [t r]. simpl in *. apply F.
  apply Forall_forall. intros q Hq. now apply nodes_address in Hq.
Qed.

(** every node of the tree holds a sub-DMD *)
Definition full (m : mrdmd) : Prop := forall p, address (mlevel m) p -> exists a, node_at (tree m) p = Ok a.

Theorem fit_total (HW : vspace_laws W) c m X :
  total_leaf_fit -> inv m -> full m -> darg m = DInstance cfg c -> 4 <= length X ->
  is_ok (snd (fit m X)) = true.
Proof.
  intros HT HI HF Hd HX.
  pose proof (clamp_level_min m (length X) ltac:(lia) HI) as ML.
  pose proof (clamp_inv m (length X) HI) as (I1 & _ & D1 & _).
  assert (G : exists m1, clamp_level W E cfg m (length X) = (m1, Ok tt) /\ full m1).
  { unfold clamp_level in *. destruct (lvl_threshold (length X) <? Z.of_nat (mlevel m))%Z; [|eauto].
    set (m0 := mkMr W E cfg (darg m) (mcyc m) (Z.to_nat (lvl_threshold (length X))) (tree m)) in *.
    pose proof (build_instance c m0 Hd) as Hb. pose proof (build_full c m0) as Hf.
    destruct (build_inv m0) as (_ & Hml & _).
    destruct (build_tree W E cfg m0) as [m1 r]. simpl in Hb. subst r. exists m1. split; auto.
    unfold full. simpl in Hml. rewrite Hml. exact (Hf m1 Hd eq_refl). }
  destruct G as (m1 & EC & Full). unfold mr_fit.
  destruct (Nat.ltb_spec (length X) 2); [lia|]. rewrite EC in *. cbn [fst] in *.
  destruct I1 as (A & B & C).
  destruct (fit_levels_total HW (mcyc m1) (bt_depth (tree m1) + 1) 0 (tree m1) X) as (t' & R & EL); auto.
  - rewrite B, ML. apply threshold_width; auto. unfold effective_level.
    pose proof (threshold_nonneg (length X)). lia.
  - intros p Hp. apply Full. now rewrite <- B.
  - unfold bt_levels. rewrite EL. reflexivity.
Qed.
End Obj.
