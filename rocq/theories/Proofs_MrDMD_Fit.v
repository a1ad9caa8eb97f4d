(** * The fit loop of MrDMD: residual chain, additive decomposition, accessors *)
From Coq Require Import List ZArith Lia Bool Arith QArith.
From Verif Require Import Py Model_MrDMD Spec_MrDMD Proofs_MrDMD_Tree Proofs_MrDMD_Time.
Import ListNotations.
Local Open Scope nat_scope.

Lemma prod_eq_dec_nat (p q : nat * nat) : {p = q} + {p <> q}.
Proof. decide equality; apply Nat.eq_dec. Defined.

Section Fit.
Context (W : vspace) (HW : vspace_laws W) (E cfg : Type).
Context (leaf_fit : cfg -> list (vs_V W) -> result (list (mode W E))) (cycles : E -> Q).
Notation V := (vs_V W).
Notation K := (vs_K W).
Notation node := (node W E cfg).
Notation recon := (node_recon W E cfg).
Notation fitn := (fit_node W E cfg leaf_fit cycles).
Notation leaves := (fit_leaves W E cfg leaf_fit cycles).
Notation levels := (fit_levels W E cfg leaf_fit cycles).

Lemma node_at_get (t : btree node) p a : node_at t p = Ok a -> bt_get_nat t p = Ok (Some a).
Proof.
  unfold node_at. destruct (bt_get_nat t p) as [[b|]|]; simpl; intros H; inversion H; auto.
Qed.

Lemma get_node_at (t : btree node) p a : bt_get_nat t p = Ok (Some a) -> node_at t p = Ok a.
Proof. unfold node_at. intros ->. reflexivity. Qed.

Lemma node_at_ext (t t' : btree node) p : bt_get_nat t p = bt_get_nat t' p -> node_at t p = node_at t' p.
Proof. unfold node_at. intros ->. reflexivity. Qed.

Lemma fit_leaves_spec mc Xs : forall (t : btree node) level leaf t' r,
  wf_tree t -> level <= bt_depth t -> leaf + length Xs <= 2 ^ level ->
  leaves mc t level leaf Xs = (t', r) ->
  wf_tree t' /\ bt_depth t' = bt_depth t /\
  (forall p, address (bt_depth t) p -> fst p <> level \/ snd p < leaf -> bt_get_nat t' p = bt_get_nat t p) /\
  (r = Ok tt -> forall i x, nth_error Xs i = Some x ->
     exists a a', node_at t (level, leaf + i) = Ok a /\ fitn mc a x = Ok a' /\
                  node_at t' (level, leaf + i) = Ok a').
Proof.
  induction Xs as [|x Xs IH]; intros t level leaf t' r Hw Hl Hle H; simpl in H.
  - inversion H; subst. repeat split; auto. intros _ [|i] y Hy; discriminate.
  - simpl in Hle.
    assert (Ha : address (bt_depth t) (level, leaf)) by (split; simpl; lia).
    destruct (node_at t (level, leaf)) as [a|e] eqn:Ea; simpl in H.
    2:{ inversion H; subst. repeat split; auto. discriminate. }
    destruct (fitn mc a x) as [a'|e] eqn:Ef; simpl in H.
    2:{ inversion H; subst. repeat split; auto. discriminate. }
    rewrite bt_set_valid in H by assumption.
    set (t1 := mkTree (bt_depth t) (upd (bt_slots t) (nslot (level, leaf)) (Some a'))) in *.
    assert (W1 : wf_tree t1) by (apply wf_upd; assumption).
    destruct (IH t1 level (S leaf) t' r W1) as (Hw' & Hd & Hsame & Hfit); auto; [simpl; lia|].
    split; [auto|]. split; [exact Hd|]. split.
    + intros p Hp Hc. rewrite Hsame; [|exact Hp|lia].
      subst t1. apply bt_get_upd_other; auto. intros <-. simpl in Hc. lia.
    + intros Hr [|i] y Hy; simpl in Hy.
      * inversion Hy; subst y. rewrite Nat.add_0_r. exists a, a'. repeat split; auto.
        apply get_node_at. rewrite Hsame; [|exact Ha|simpl; lia].
        subst t1. apply bt_get_upd_same; auto.
      * destruct (Hfit Hr i y Hy) as (b & b' & B1 & B2 & B3).
        replace (leaf + S i) with (S leaf + i) by lia. exists b, b'. repeat split; auto.
        rewrite <- B1. apply node_at_ext. subst t1. symmetry. apply bt_get_upd_other; auto.
        -- split; simpl; [lia|]. assert (i < length Xs) by (apply nth_error_Some; congruence). lia.
        -- intros X. inversion X. lia.
Qed.

Lemma map_nodes_ext {B} (f : node -> B) (t t' : btree node) ps :
  (forall p, In p ps -> bt_get_nat t p = bt_get_nat t' p) -> map_nodes t f ps = map_nodes t' f ps.
Proof.
  induction ps as [|p ps IH]; intros H; auto. simpl.
  rewrite (node_at_ext t t') by (apply H; simpl; auto).
  rewrite IH; auto. intros q Hq. apply H. simpl; auto.
Qed.

Lemma level_recon_ext (t t' : btree node) l :
  bt_depth t = bt_depth t' -> l <= bt_depth t ->
  (forall p, address (bt_depth t) p -> fst p = l -> bt_get_nat t p = bt_get_nat t' p) ->
  level_recon W E cfg t l = level_recon W E cfg t' l.
Proof.
  intros Hd Hl H. unfold level_recon. erewrite map_nodes_ext; [reflexivity|].
  intros p Hp. apply in_map_iff in Hp. destruct Hp as (k & <- & Hk).
  unfold bt_leaves in Hk. apply in_seq in Hk. apply H; [split; simpl; lia|reflexivity].
Qed.

Lemma combine_map_r {A B C} (f : B -> C) (l : list A) (l' : list B) :
  combine l (map f l') = map (fun p => (fst p, f (snd p))) (combine l l').
Proof. revert l'; induction l; intros [|b l']; simpl; f_equal; auto. Qed.

Lemma sub_add (X Y R : list V) :
  sub_cols W X Y = Ok R -> length Y = length X /\ length R = length X /\ X = add_cols W R Y.
Proof.
  unfold sub_cols. destruct (Nat.eqb_spec (length X) (length Y)) as [L|]; [|discriminate].
  intros H; inversion H; subst. split; [auto|]. split.
  - rewrite map_length, combine_length. lia.
  - unfold add_cols. clear H. revert Y L. induction X as [|x X IH]; intros [|y Y] L; simpl in *; try discriminate; auto.
    rewrite (law_sub _ HW). f_equal. apply IH. lia.
Qed.

(** what is known of level [l] of the tree [t'] when the residual before that
    level is [X], the one after it [X'], and the sub-DMDs came from [t] *)
Definition level_ok (mc : Q) (t t' : btree node) (l : nat) (X X' : list V) : Prop :=
  (exists Y, level_recon W E cfg t' l = Ok Y /\ length Y = length X /\ length X' = length X /\
             X = add_cols W X' (map (vs_cast W) Y)) /\
  (forall k, k < 2 ^ l -> exists a b ms,
      node_at t (l, k) = Ok a /\
      nth_error (array_split X (2 ^ l)) k = Some b /\ 2 <= length b /\
      leaf_fit (nd_cfg _ _ _ a) b = Ok ms /\
      node_at t' (l, k) =
        Ok (mkNode W E cfg (nd_cfg _ _ _ a) (length b)
              (filter (slow W E cycles (mc / inject_Z (Z.of_nat (length b)))) ms))).

Lemma fit_levels_spec mc n : forall s (t : btree node) X t' R,
  wf_tree t -> s + n = bt_depth t + 1 ->
  levels mc t X (seq s n) = (t', Ok R) ->
  wf_tree t' /\ bt_depth t' = bt_depth t /\
  (forall p, address (bt_depth t) p -> fst p < s -> bt_get_nat t' p = bt_get_nat t p) /\
  exists Rs : nat -> list V, Rs 0 = X /\ Rs n = R /\
    forall i, i < n -> level_ok mc t t' (s + i) (Rs i) (Rs (S i)).
Proof.
  induction n as [|n IH]; intros s t X t' R Hw Hs H; simpl in H.
  - inversion H; subst. repeat split; auto. exists (fun _ => R). split; [auto|]. split; [auto|]. intros i Hi. lia.
  - destruct (leaves mc t s 0 (array_split X (2 ^ s))) as [t1 r1] eqn:E1.
    assert (L := E1). apply fit_leaves_spec in L; auto; [|lia|rewrite array_split_length; lia].
    destruct L as (W1 & D1 & Same1 & Fit1).
    destruct r1 as [[]|e]; [|discriminate].
    destruct (level_recon W E cfg t1 s) as [Y|e] eqn:EY; simpl in H; [|discriminate].
    destruct (sub_cols W X (map (vs_cast W) Y)) as [X'|e] eqn:EX; [|discriminate].
    assert (H' := H). apply IH in H'; auto; [|lia].
    destruct H' as (W' & D' & Same' & Rs & R0 & Rn & Lv).
    split; [auto|]. split; [lia|]. split.
    { intros p Hp Hps. rewrite Same'; [|rewrite D1; auto|lia]. apply Same1; auto. lia. }
    exists (fun i => match i with 0 => X | S j => Rs j end).
    split; [reflexivity|]. split; [exact Rn|].
    intros [|i] Hi.
    + rewrite Nat.add_0_r. rewrite R0. apply sub_add in EX. destruct EX as (LY & LX & EX).
      rewrite map_length in LY. split.
      * exists Y. split; [|auto]. rewrite <- EY. apply level_recon_ext; [lia|lia|].
        intros p Hp Hps. apply Same'; [rewrite <- D'; auto|lia].
      * intros k Hk.
        assert (Hb : nth_error (array_split X (2 ^ s)) k = Some (block X (2 ^ s) k)).
        { apply array_split_nth; auto. apply pow2_pos. }
        destruct (Fit1 eq_refl k _ Hb) as (a & a' & A1 & A2 & A3). simpl in A1, A3.
        unfold fit_node in A2. destruct (Nat.ltb_spec (length (block X (2 ^ s) k)) 2); [discriminate|].
        destruct (leaf_fit (nd_cfg W E cfg a) (block X (2 ^ s) k)) as [ms|] eqn:El; [|discriminate].
        simpl in A2. inversion A2; subst a'.
        exists a, (block X (2 ^ s) k), ms. repeat split; auto.
        rewrite <- A3. apply node_at_ext. apply Same'; [split; simpl; [lia|exact Hk]|simpl; lia].
    + replace (s + S i) with (S s + i) by lia.
      destruct (Lv i ltac:(lia)) as [LA LB]. split; [exact LA|].
      intros k Hk. destruct (LB k Hk) as (a & b & ms & B1 & B2). exists a, b, ms. split; [|exact B2].
      rewrite <- B1. apply node_at_ext. symmetry. apply Same1; [|simpl; lia].
      split; simpl; [|simpl in Hk; exact Hk]. lia.
Qed.

(** ** build_tree *)
Lemma fill_spec (f : nat -> nat -> result cfg) ps : forall (t : btree node) t' r,
  wf_tree t -> Forall (address (bt_depth t)) ps -> fill W E cfg f t ps = (t', r) ->
  wf_tree t' /\ bt_depth t' = bt_depth t /\
  (r = Ok tt -> forall p, (In p ps -> exists c, f (fst p) (snd p) = Ok c /\ node_at t' p = Ok (mkNode W E cfg c 0 []))
      /\ (address (bt_depth t) p -> ~ In p ps -> bt_get_nat t' p = bt_get_nat t p)).
Proof.
  induction ps as [|q ps IH]; intros t t' r Hw HF H; simpl in H.
  - inversion H; subst. repeat split; auto; simpl; tauto.
  - inversion HF as [|x y Hq HF']; subst.
    destruct (f (fst q) (snd q)) as [c|e] eqn:Ef; simpl in H.
    2:{ inversion H; subst. repeat split; auto; discriminate. }
    rewrite bt_set_valid in H by assumption.
    apply IH in H; [|apply wf_upd; assumption|exact HF']. simpl in H.
    destruct H as (W' & D' & G). split; [auto|]. split; [auto|].
    intros Hr p. destruct (G Hr p) as [G1 G2]. split.
    + destruct (in_dec (prod_eq_dec_nat) p ps) as [Hi|Hi]; auto.
      intros [<-|Hp]; [|contradiction]. exists c. split; auto.
      apply get_node_at. rewrite G2; auto. apply bt_get_upd_same; auto.
    + intros Hp Hn. rewrite G2; auto; [|intros X; apply Hn; simpl; auto].
      apply bt_get_upd_other; auto. intros ->. apply Hn. simpl; auto.
Qed.
End Fit.
