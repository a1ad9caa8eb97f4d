(** C63: the options of the variable projection. *)
From Coq Require Import List ZArith QArith String Bool Arith Lia Lqa.
From Verif Require Import Py Model_BOPOpts Spec_BOPOpts.
Import ListNotations.
Open Scope string_scope.

Lemma names : map fst parameters = documented. Proof. reflexivity. Qed.
Lemma existsb_in k l : existsb (String.eqb k) l = true <-> In k l.
Proof.
  rewrite existsb_exists. split.
  - intros (x & I & E). apply String.eqb_eq in E. congruence.
  - intros I. exists k. split; auto. apply String.eqb_refl.
Qed.
Lemma lookup_in k d v : lookup k d = Some v -> In (k, v) d.
Proof.
  induction d as [|[k' v'] d IH]; simpl; try discriminate. destruct (String.eqb_spec k k'); auto. intros [= ->]. subst. auto.
Qed.
Lemma lookup_none k d : lookup k d = None -> forall v, ~ In (k, v) d.
Proof.
  induction d as [|[k' v'] d IH]; simpl; auto. destruct (String.eqb_spec k k'); try discriminate. intros H v [E|I]; [congruence|]. exact (IH H v I).
Qed.
Lemma in_lookup k d v : NoDup (map fst d) -> In (k, v) d -> lookup k d = Some v.
Proof.
  induction d as [|[k' v'] d IH]; simpl; [tauto|]. intros N [E|I].
  - injection E as -> ->. now rewrite String.eqb_refl.
  - inversion N as [|? ? N1 N2]; subst. destruct (String.eqb_spec k k') as [->|]; auto. exfalso. apply N1. now apply (in_map fst) in I.
Qed.
Definition picked (d : dict) (p : string * value) : value := match lookup (fst p) d with Some v => v | None => snd p end.
Lemma picked_given d p : In p parameters -> given d (fst p) (picked d p).
Proof.
  intros I. unfold picked. destruct (lookup (fst p) d) eqn:E.
  - constructor. now apply lookup_in.
  - replace (snd p) with (default (fst p)); [apply Defaulted; now apply lookup_none|].
    simpl in I. repeat (destruct I as [<-|I]; [reflexivity|]). destruct I.
Qed.
Lemma bind_callP d l : bind_call d = Ok l -> l = map (picked d) parameters /\ forall k v, In (k, v) d -> In k documented.
Proof.
  unfold bind_call. destruct (forallb _ d) eqn:F; try discriminate. intros [= <-]. split; auto.
  intros k v I. rewrite forallb_forall in F. specialize (F _ I). simpl fst in F. rewrite existsb_in in F. exact F.
Qed.

Lemma as_num_number v : as_num v <> None <-> number v. Proof. destruct v; simpl; split; congruence || tauto. Qed.
Lemma opts_warn_ok rs : forall l, List.length l = List.length rs ->
  ((exists ws, opts_warn l rs = Ok ws) <-> Forall number l) /\ (forall e, opts_warn l rs = Err e -> e = TypeError).
Proof.
  induction rs as [|[k [lo hi]] rs IH]; intros [|v l]; simpl; try discriminate.
  - intros _. split; [split; eauto|discriminate].
  - intros [= E]. destruct (IH l E) as [IH1 IH2]. destruct (as_num v) eqn:A.
    + assert (number v) by (apply as_num_number; congruence). destruct (opts_warn l rs) eqn:O; simpl.
      * split; [|discriminate]. split; eauto. intros _. constructor; auto. apply IH1. eauto.
      * split; [|intros ? [= <-]; auto]. split; [intros [? ?]; discriminate|]. intros F. inversion F; subst.
        apply IH1 in H3. destruct H3; discriminate.
    + split; [|congruence]. split; [intros [? ?]; discriminate|]. intros F. inversion F; subst. apply as_num_number in H1. congruence.
Qed.

(** The options are accepted exactly when the dictionary names only documented options and gives each a number; otherwise the
    fit raises TypeError. The constructor of BOPDMD looks at none of this. *)
Theorem C63_accepted d : NoDup (map fst d) ->
  ((exists opts ws, build d = Ok (opts, ws)) <-> forall k v, In (k, v) d -> In k documented /\ number v) /\
  (forall e, build d = Err e -> e = TypeError) /\ init_opts (DDict d) = Ok d.
Proof.
  intros N. unfold build. destruct (bind_call d) as [l|e] eqn:B; cbn [bind].
  - destruct (bind_callP _ _ B) as [-> K]. destruct (opts_warn_ok ranges (map (picked d) parameters) eq_refl) as [H1 H2].
    split; [|split; auto].
    + split.
      * intros (o & ws & H). destruct (opts_warn _ ranges) eqn:W; cbn [bind] in H; try discriminate.
        intros k v I. split; [eauto|]. assert (F : Forall number (map (picked d) parameters)) by (apply H1; eauto).
        rewrite Forall_forall in F. assert (D := K _ _ I). rewrite <- names, in_map_iff in D. destruct D as (p & <- & Ip).
        replace v with (picked d p); [apply F; now apply in_map|]. unfold picked. now rewrite (in_lookup _ _ _ N I).
      * intros H. assert (F : Forall number (map (picked d) parameters)).
        { rewrite Forall_forall. intros x Hx. apply in_map_iff in Hx. destruct Hx as (p & <- & Ip). unfold picked.
          destruct (lookup (fst p) d) eqn:E; [apply lookup_in in E; now apply H in E|].
          simpl in Ip. repeat (destruct Ip as [<-|Ip]; [exact Logic.I|]). destruct Ip. }
        apply H1 in F. destruct F as [ws ->]. cbn [bind]. eauto.
    + intros e. destruct (opts_warn _ ranges) eqn:W; cbn [bind]; [discriminate|]. intros [= <-]. auto.
  - unfold bind_call in B. destruct (forallb _ d) eqn:F; [discriminate|]. injection B as <-. split; [|split; [congruence|auto]].
    split; [intros (? & ? & ?); discriminate|]. intros H. exfalso. rewrite <- not_true_iff_false in F. apply F.
    apply forallb_forall. intros [k v] I. apply existsb_in. rewrite names. now apply H in I.
Qed.

(** Every option has the value given for it, or else its documented default. *)
Theorem C63_values d opts ws : build d = Ok (opts, ws) ->
  List.length opts = 9%nat /\ forall i k v, nth_error documented i = Some k -> nth_error opts i = Some v -> given d k v.
Proof.
  unfold build. destruct (bind_call d) as [l|] eqn:B; cbn [bind]; try discriminate. destruct (opts_warn l ranges); cbn [bind]; try discriminate.
  intros [= -> _]. destruct (bind_callP _ _ B) as [-> _]. split; [reflexivity|]. intros i k v Hk Hv.
  rewrite nth_error_map in Hv. rewrite <- names, nth_error_map in Hk. destruct (nth_error parameters i) as [p|] eqn:P; try discriminate.
  injection Hk as <-. injection Hv as <-. apply picked_given. now apply nth_error_In in P.
Qed.

Definition wname (w : warning) : string := match w with LessThan k _ _ | GreaterThan k _ _ => k end.
Lemma ltb_spec x y : negb (Qle_bool y x) = true <-> (x < y)%Q.
Proof. rewrite negb_true_iff, <- not_true_iff_false, Qle_bool_iff. split; lra. Qed.
Lemma lt_below v x q : as_num v = Some x -> (num_lt x (Fin q) = true <-> below v q).
Proof.
  destruct v as [z|[y| | |]|b|t]; simpl; try discriminate; intros [= <-]; simpl; try apply ltb_spec; split; auto; discriminate || tauto.
Qed.
Lemma lt_above v x q : as_num v = Some x -> (num_lt (Fin q) x = true <-> above v q).
Proof.
  destruct v as [z|[y| | |]|b|t]; simpl; try discriminate; intros [= <-]; simpl; try apply ltb_spec; split; auto; discriminate || tauto.
Qed.
Lemma table k lo hi : In (k, (lo, hi)) ranges ->
  lo = match lower k with Some q => Fin q | None => NInf end /\ hi = match upper k with Some q => Fin q | None => PInf end /\
  (forall q q', lower k = Some q -> upper k = Some q' -> (q <= q')%Q).
Proof.
  intros I. simpl in I.
  repeat (destruct I as [E|I]; [injection E as <- <- <-; cbn; repeat split; intros q q'; try discriminate; intros [= <-] [= <-]; lra|]).
  destruct I.
Qed.
Lemma lt_below_above v q q' : (q <= q')%Q -> below v q -> above v q' -> False.
Proof. destruct v as [z|[y| | |]|b|t]; simpl; intros; try tauto; lra. Qed.
Definition warn_one (k : string) (v : value) (x lo hi : num) : list warning :=
  if num_lt x lo then [LessThan k v lo] else if num_lt hi x then [GreaterThan k v hi] else [].
(** One entry of the table against the specification. *)
Lemma entry k lo hi v x : In (k, (lo, hi)) ranges -> as_num v = Some x -> forall w, In w (warn_one k v x lo hi) <-> due k v w.
Proof.
  intros I A w. destruct (table _ _ _ I) as (-> & -> & Hq). unfold warn_one, due.
  assert (NL : num_lt x NInf = false) by (destruct x; reflexivity).
  assert (NU : num_lt PInf x = false) by (destruct x; reflexivity).
  destruct (lower k) as [q|], (upper k) as [q'|]; rewrite ?NL, ?NU.
  - assert (B := lt_below v x q A). assert (U := lt_above v x q' A). assert (X := lt_below_above v q q' (Hq _ _ eq_refl eq_refl)).
    destruct (num_lt x (Fin q)) eqn:E1; [|destruct (num_lt (Fin q') x) eqn:E2]; simpl; split.
    + intros [<-|[]]. left. exists q. repeat split; tauto.
    + intros [(p & [= <-] & _ & ->)|(p & [= <-] & Ha & _)]; auto. exfalso. apply X; tauto.
    + intros [<-|[]]. right. exists q'. repeat split; tauto.
    + intros [(p & [= <-] & Hb & _)|(p & [= <-] & _ & ->)]; auto. exfalso. apply B in Hb. discriminate.
    + intros [].
    + intros [(p & [= <-] & Hb & _)|(p & [= <-] & Ha & _)]; [apply B in Hb|apply U in Ha]; discriminate.
  - assert (B := lt_below v x q A). destruct (num_lt x (Fin q)) eqn:E1; simpl; split.
    + intros [<-|[]]. left. exists q. repeat split; tauto.
    + intros [(p & [= <-] & _ & ->)|(p & ? & _)]; [auto|discriminate].
    + intros [].
    + intros [(p & [= <-] & Hb & _)|(p & ? & _)]; [apply B in Hb|]; discriminate.
  - assert (U := lt_above v x q' A). destruct (num_lt (Fin q') x) eqn:E2; simpl; split.
    + intros [<-|[]]. right. exists q'. repeat split; tauto.
    + intros [(p & ? & _)|(p & [= <-] & _ & ->)]; [discriminate|auto].
    + intros [].
    + intros [(p & ? & _)|(p & [= <-] & Ha & _)]; [|apply U in Ha]; discriminate.
  - simpl. split; [intros []|]. intros [(p & ? & _)|(p & ? & _)]; discriminate.
Qed.

Lemma opts_warnP l rs ws : opts_warn l rs = Ok ws -> List.length l = List.length rs -> incl rs ranges ->
  (forall w, In w ws <-> exists i k v, nth_error (map fst rs) i = Some k /\ nth_error l i = Some v /\ due k v w) /\
  (NoDup (map fst rs) -> NoDup (map wname ws)) /\ incl (map wname ws) (map fst rs).
Proof.
  revert l ws. induction rs as [|[k [lo hi]] rs IH]; intros [|v l] ws; simpl; try discriminate.
  - intros [= <-] _ _. split; [|split; [constructor|intros ? []]]. intros w. split; [intros []|]. intros ([|i] & ? & ? & ? & _); discriminate.
  - destruct (as_num v) as [x|] eqn:A; try discriminate. fold (warn_one k v x lo hi).
    destruct (opts_warn l rs) as [r|] eqn:O; cbn [bind]; try discriminate. intros [= <-] [= E] Inc.
    assert (I0 : In (k, (lo, hi)) ranges) by (apply Inc; left; auto).
    destruct (IH l r O E) as (H1 & H2 & H3); [intros y Hy; apply Inc; right; auto|].
    assert (N1 : map wname (warn_one k v x lo hi) = [] \/ map wname (warn_one k v x lo hi) = [k]).
    { unfold warn_one. destruct (num_lt x lo); [right; reflexivity|]. destruct (num_lt hi x); [right|left]; reflexivity. }
    split; [|split].
    + intros w. rewrite in_app_iff, (entry k lo hi v x I0 A w), H1. split.
      * intros [D|(i & k' & v' & D)]; [exists 0%nat, k, v; auto|exists (Datatypes.S i), k', v'; auto].
      * intros ([|i] & k' & v' & Hk & Hv & D); simpl in Hk, Hv; [injection Hk as <-; injection Hv as <-; auto|right; exists i, k', v'; auto].
    + intros N. inversion N as [|? ? N2 N3]; subst. rewrite map_app. destruct N1 as [->| ->]; simpl; auto. constructor; auto.
    + rewrite map_app. destruct N1 as [->| ->]; simpl; intros y Hy; [right; auto|destruct Hy as [<-|Hy]; [left|right]; auto].
Qed.

(** There is a warning for an option exactly when its value is outside the recommended range, and never two for one option. *)
Theorem C63_warnings d opts ws : build d = Ok (opts, ws) -> NoDup (map fst d) ->
  (forall w, In w ws <-> exists k v, In k documented /\ given d k v /\ due k v w) /\ NoDup (map wname ws).
Proof.
  intros H ND. destruct (C63_values d opts ws H) as [L V]. revert H. unfold build. destruct (bind_call d) as [l|] eqn:B; cbn [bind]; try discriminate.
  destruct (opts_warn l ranges) as [ws'|] eqn:W; cbn [bind]; try discriminate. intros [= -> ->].
  destruct (opts_warnP _ _ _ W L (incl_refl _)) as (H1 & H2 & _). split.
  - intros w. rewrite H1. split.
    + intros (i & k & v & Hk & Hv & D). exists k, v. repeat split; auto; [now apply nth_error_In in Hk|]. exact (V i k v Hk Hv).
    + intros (k & v & Ik & G & D). apply In_nth_error in Ik. destruct Ik as [i Hi].
      assert (Hl : (i < List.length opts)%nat) by (rewrite L; change 9%nat with (List.length documented); apply nth_error_Some; congruence).
      destruct (nth_error opts i) as [v'|] eqn:Hv; [|apply nth_error_Some in Hl; congruence].
      exists i, k, v'. repeat split; auto. replace v' with v; auto.
      assert (G' := V i k v' Hi Hv). inversion G as [? I1|N1]; inversion G' as [? I2|N2]; subst; auto.
      * apply (in_lookup _ _ _ ND) in I1. apply (in_lookup _ _ _ ND) in I2. congruence.
      * now apply N2 in I1.
      * now apply N1 in I2.
  - apply H2. cbn. repeat constructor; simpl; intuition discriminate.
Qed.
(** The defaults give no warning. *)
Theorem C63_quiet : exists opts, build [] = Ok (opts, []). Proof. eexists. reflexivity. Qed.

(** With [verbose] on, the progress of the first five trials is displayed and of no other; with it off, of none. *)
Lemma bag_loop_off n left v : truthy v = false -> bag_loop n v false left = (v, repeat false n).
Proof. intros T. induction n; simpl; auto. now rewrite IHn, T. Qed.
Lemma bag_loop_on n : forall left v, truthy v = true -> (0 < left)%nat ->
  snd (bag_loop n v true left) = map (fun i => Nat.ltb i left) (seq 0 n) /\
  (fst (bag_loop n v true left) = if Nat.eqb n 0 then v else VBool (Nat.ltb n left)).
Proof.
  induction n as [|n IH]; intros left v T L; [now split|]. simpl bag_loop. rewrite T.
  destruct (Nat.ltb 0 (left - 1)) eqn:E.
  - apply Nat.ltb_lt in E. destruct (IH (left - 1)%nat (VBool true) eq_refl E) as [H1 H2].
    destruct (bag_loop n _ true _) as [r l] eqn:R. simpl in *. subst r l. split.
    + rewrite <- seq_shift, map_map. f_equal; [symmetry; apply Nat.ltb_lt; lia|]. apply map_ext. intros i.
      destruct (Nat.ltb_spec i (left - 1)), (Nat.ltb_spec (Datatypes.S i) left); auto; lia.
    + destruct n; simpl; [f_equal; symmetry; apply Nat.ltb_lt; lia|]. f_equal.
      destruct (Nat.ltb_spec (Datatypes.S n) (left - 1)), (Nat.ltb_spec (Datatypes.S (Datatypes.S n)) left); auto; lia.
  - apply Nat.ltb_ge in E. assert (left = 1%nat) as -> by lia. rewrite bag_loop_off by reflexivity. simpl. split.
    + f_equal. rewrite <- seq_shift, map_map. clear. assert (X : forall a, repeat false n = map (fun x => Nat.ltb (Datatypes.S x) 1) (seq a n)); [|exact (X 0%nat)].
      induction n; intros a; simpl; auto. now rewrite <- IHn.
    + reflexivity.
Qed.
Theorem C63_displayed d opts ws n : build d = Ok (opts, ws) ->
  forall v, given d "verbose" v -> NoDup (map fst d) ->
  snd (after_fit opts n) = if truthy v then map (fun i => Nat.ltb i 5) (seq 0 n) else repeat false n.
Proof.
  intros H v G ND. assert (Ev : List.last opts (VBool false) = v).
  { destruct (C63_values d opts ws H) as [L V]. do 9 (destruct opts as [|? opts]; try discriminate). destruct opts; try discriminate. simpl.
    assert (G' := V 8%nat _ _ eq_refl eq_refl). inversion G as [? I1|N1]; inversion G' as [? I2|N2]; subst; auto.
    * apply (in_lookup _ _ _ ND) in I1. apply (in_lookup _ _ _ ND) in I2. congruence.
    * now apply N2 in I1.
    * now apply N1 in I2. }
  unfold after_fit. rewrite Ev. destruct (truthy v) eqn:T.
  - destruct (bag_loop_on n 5 v T) as [H1 _]; [lia|]. destruct (bag_loop n v true 5). exact H1.
  - now rewrite bag_loop_off.
Qed.

(** After the fit, the options are unchanged but for [verbose]: the flag itself is stored as the last trial left it. *)
Theorem C63_kept d opts ws n : build d = Ok (opts, ws) ->
  List.length (fst (after_fit opts n)) = 9%nat /\
  (forall i, (i < 8)%nat -> nth_error (fst (after_fit opts n)) i = nth_error opts i) /\
  (forall v, nth_error opts 8 = Some v -> exists v', nth_error (fst (after_fit opts n)) 8 = Some v' /\
     (truthy v = false \/ n = 0%nat -> v' = v) /\ (truthy v = true -> (0 < n)%nat -> v' = VBool (Nat.ltb n 5))).
Proof.
  intros H. destruct (C63_values d opts ws H) as [L _]. clear H. do 9 (destruct opts as [|? opts]; try discriminate).
  destruct opts; try discriminate. unfold after_fit. simpl List.last.
  assert (X : forall v', set_last [v; v0; v1; v2; v3; v4; v5; v6; v7] v' = [v; v0; v1; v2; v3; v4; v5; v6; v']) by reflexivity.
  destruct (bag_loop n v7 (truthy v7) 5) as [r l] eqn:R. rewrite X. simpl fst. split; [reflexivity|]. split.
  - intros i Hi. do 8 (destruct i; [reflexivity|]). lia.
  - intros w [= <-]. exists r. split; [reflexivity|]. split.
    + intros [T|N]; [rewrite T, bag_loop_off in R by auto; congruence|subst n; simpl in R; congruence].
    + intros T Hn. rewrite T in R. destruct (bag_loop_on n 5 v7 T) as [_ H2]; [lia|]. rewrite R in H2. simpl in H2. rewrite H2.
      destruct n; [lia|reflexivity].
Qed.

(** The printed lines show, for each option in order, its name and its value; before the fit there is an error. *)
Theorem C63_printed show d opts ws n : build d = Ok (opts, ws) ->
  exists ls, print_opts show (Some (fst (after_fit opts n))) = Ok ls /\ List.length ls = 9%nat /\
  (forall i k v, nth_error documented i = Some k -> nth_error (fst (after_fit opts n)) i = Some v ->
     exists sep, (sep = tab \/ sep = tab ++ tab) /\ nth_error ls i = Some (k ++ ":" ++ sep ++ show v)) /\
  print_opts show None = Err ValueError.
Proof.
  intros H. destruct (C63_kept d opts ws n H) as (L & _ & _). unfold print_opts. eexists. split; [reflexivity|].
  set (o := fst _) in *. split; [|split; [|reflexivity]].
  - rewrite map_length, combine_length, L. reflexivity.
  - intros i k v Hk Hv. rewrite nth_error_map. rewrite names.
    assert (C : nth_error (combine documented o) i = Some (k, v)).
    { clearbody o. clear -Hk Hv. revert i o Hk Hv. generalize documented. induction l as [|a l IH]; intros [|i] [|b o]; simpl; try discriminate; auto.
      intros [= ->] [= ->]. reflexivity. }
    rewrite C. cbn [option_map fst snd]. destruct (Nat.ltb (String.length k) 7); [exists (tab ++ tab)|exists tab]; (split; [auto|reflexivity]).
Qed.

(** Refuted: the printed [verbose] is not the chosen one: after five or more trials a [True] is printed as False. *)
Theorem C63_printed_refuted n : (5 <= n)%nat -> exists opts ws, build [("verbose", VBool true)] = Ok (opts, ws) /\
  nth_error opts 8 = Some (VBool true) /\ nth_error (fst (after_fit opts n)) 8 = Some (VBool false).
Proof.
  intros N. eexists _, _. split; [reflexivity|]. split; [reflexivity|].
  destruct (C63_kept _ _ _ n (eq_refl : build [("verbose", VBool true)] = Ok (_, _))) as (_ & _ & H).
  destruct (H _ eq_refl) as (v' & -> & _ & E). rewrite E; [|reflexivity|lia]. do 2 f_equal. apply Nat.ltb_ge. lia.
Qed.
(** A dictionary with two warnings and one without a number. *)
Example C63_ex :
  build [("maxlam", VInt 300); ("lamup", VFloat (Fin (1 # 2))); ("tol", VFloat NaN)] =
    Ok ([VFloat (Fin 1); VInt 300; VFloat (Fin (1 # 2)); VBool true; VInt 30; VFloat NaN; VFloat (Fin (1 # 1000000000000)); VBool true; VBool false],
        [GreaterThan "maxlam" (VInt 300) (Fin 200); LessThan "lamup" (VFloat (Fin (1 # 2))) (Fin 1)]) /\
  build [("tol", VOther 0)] = Err TypeError /\ build [("max_iter", VInt 3)] = Err TypeError /\
  snd (after_fit [VBool true] 7) = [true; true; true; true; true; false; false].
Proof. repeat split. Qed.
Print Assumptions C63_accepted.
Print Assumptions C63_values.
Print Assumptions C63_warnings.
Print Assumptions C63_quiet.
Print Assumptions C63_displayed.
Print Assumptions C63_kept.
Print Assumptions C63_printed.
Print Assumptions C63_printed_refuted.
