(** What an indexed copy contains (C03, C04), and the time dictionaries (C05). *)
From Coq Require Import List ZArith Lia Bool String QArith.
From Verif Require Import Py Model_Base Spec_Base Proofs_Base_View Proofs_Base_Family Proofs_Base_Inv Proofs_Base_Share.
Import ListNotations.
Local Open Scope nat_scope.
Local Notation length := List.length.

Section P.
Context {V : Type}.
Implicit Types (w : world V).

(** the full arrays an instance is built on *)
Definition full w s (k : kind) : list V :=
  match k with
  | KModes => match o_modes (oper_of w s) with Some l => hget w l | None => [] end
  | KEigs => match o_eigs (oper_of w s) with Some l => hget w l | None => [] end
  | KAmps => match in_b s with Some l => hget w l | None => [] end
  end.

Definition copy_result w s key : result (list bool) :=
  match check_key key with
  | Err x => Err x
  | Ok _ =>
      match peek_mask w s with
      | Err x => Err x
      | Ok m =>
          match key_mask (length m) key with
          | Err x => Err x
          | Ok mask =>
              match alloc_check w s with
              | Err x => Err x
              | Ok _ => if length mask =? length (full w s KEigs) then Ok mask else Err ValueError
              end
          end
      end
  end.

Lemma touch_inst w i s : nth_error (insts w) i = Some s ->
  exists s1, nth_error (insts (touch w i s)) i = Some s1 /\
    in_op s1 = in_op s /\ in_b s1 = in_b s /\ in_ot s1 = in_ot s /\ in_dt s1 = in_dt s.
Proof.
  intros I. destruct (touch_cases w i s I) as [->|(_ & _ & m & e & b & A & ->)]; eauto 7.
  eexists. split; [simpl; apply nth_error_upd_eq, nth_error_Some; congruence|]. auto.
Qed.

Lemma touch_full w i s s1 k : wf w -> nth_error (insts w) i = Some s ->
  in_op s1 = in_op s -> in_b s1 = in_b s -> full (touch w i s) s1 k = full w s k.
Proof.
  intros W I A B. destruct (touch_frame w i s I) as (F1 & _ & _ & _ & F5 & _).
  pose proof (nth_error_wf _ _ _ W I) as (K1 & K2 & _).
  pose proof (wf_opers _ W _ (oper_of_In _ _ K1)) as [O1 O2].
  assert (O : oper_of (touch w i s) s1 = oper_of w s) by (unfold oper_of; now rewrite F1, A).
  unfold full. rewrite O, B. destruct k.
  - destruct (o_modes (oper_of w s)); auto.
  - destruct (o_eigs (oper_of w s)); auto.
  - destruct (in_b s); auto.
Qed.
Lemma touch_alloc_check w i s s1 : wf w -> nth_error (insts w) i = Some s ->
  in_op s1 = in_op s -> in_b s1 = in_b s -> alloc_check (touch w i s) s1 = alloc_check w s.
Proof.
  intros W I A B. destruct (touch_frame w i s I) as (F1 & _ & _ & _ & F5 & _).
  pose proof (nth_error_wf _ _ _ W I) as (K1 & K2 & _).
  pose proof (wf_opers _ W _ (oper_of_In _ _ K1)) as [O1 O2].
  assert (O : oper_of (touch w i s) s1 = oper_of w s) by (unfold oper_of; now rewrite F1, A).
  unfold alloc_check. rewrite O, B. destruct (in_b s); auto.
  destruct (o_modes (oper_of w s)); auto. destruct (o_eigs (oper_of w s)); auto.
  rewrite !F5; auto.
Qed.

Lemma getitem_exact w i s k : wf w -> nth_error (insts w) i = Some s ->
  match copy_result w s k with
  | Err x => getitem w i s k = (w, Err x) \/ getitem w i s k = (touch w i s, Err x)
  | Ok mask =>
      let w1 := touch w i s in
      exists s1, nth_error (insts w1) i = Some s1 /\
        in_op s1 = in_op s /\ in_b s1 = in_b s /\ in_ot s1 = in_ot s /\ in_dt s1 = in_dt s /\
      exists m e b, alloc_ready w1 s1 m e b /\
        length mask = length (hget w1 e) /\
        getitem w i s k =
          (mask_world (alloc_world (add_inst w1 s1) (length (insts w1)) s1 m e b)
             (length (proxies w1))
             (fresh_px (add_inst w1 s1) m e b (repeat true (length (hget w1 e)))) mask,
           Ok (length (insts w1)))
  end.
Proof.
  intros W I. unfold copy_result, getitem. destruct (check_key k) as [u|x]; auto.
  rewrite (get_mask_peek w i s I).
  destruct (peek_mask w s) as [m0|] eqn:P; auto.
  destruct (key_mask (length m0) k) as [mask|] eqn:K; auto.
  destruct (touch_inst w i s I) as (s1 & I1 & E1 & E2 & E3 & E4).
  destruct (touch_proxy w i s m0 W I P) as (s1' & p & px & I1' & P1 & Q1 & M1).
  rewrite I1 in I1'. injection I1' as <-.
  rewrite <- (touch_alloc_check w i s s1 W I E1 E2), <- (touch_full w i s s1 KEigs W I E1 E2).
  cbv zeta. set (w1 := touch w i s) in *. rewrite I1.
  set (w2 := add_inst w1 s1).
  pose proof (wf_touch w i s W I) as W1. fold w1 in W1.
  assert (W2 : wf w2). { apply wf_add_inst; auto. eapply nth_error_wf; eauto. }
  pose proof (allocate_spec w2 (length (insts w1)) s1) as A.
  change (alloc_check w2 s1) with (alloc_check w1 s1) in A.
  destruct (alloc_check w1 s1) as [u'|x]; [|rewrite A; auto].
  destruct (in_b s1) as [b|] eqn:B.
  2: { exfalso. pose proof (nth_error_wf _ _ _ W1 I1) as (_ & _ & _ & _ & _ & Q). specialize (Q B). congruence. }
  destruct A as (m & e & A & ->). change (proxies w2) with (proxies w1) in *.
  set (j := length (insts w1)). set (s3 := with_px s1 (Some (length (proxies w1)))).
  set (w3 := alloc_world w2 j s1 m e b).
  assert (I2 : nth_error (insts w2) j = Some s1).
  { unfold w2, j; simpl. now rewrite nth_error_app2, Nat.sub_diag. }
  assert (I3 : nth_error (insts w3) j = Some s3).
  { change (nth_error (upd (insts w2) j s3) j = Some s3).
    apply nth_error_upd_eq, nth_error_Some. congruence. }
  assert (W3 : wf w3). { apply wf_alloc; auto. eapply nth_error_wf; eauto. }
  assert (Pa : proxy_at w3 (length (proxies w1)) = Some (fresh_px w2 m e b (repeat true (length (hget w1 e))))).
  { unfold proxy_at, w3, alloc_world; simpl. now rewrite nth_error_app2, Nat.sub_diag. }
  assert (Fit3 : fitted w3 s3 = true).
  { unfold fitted. change (oper_of w3 s3) with (oper_of w2 s1).
    destruct A as (_ & A2 & _). now rewrite A2. }
  assert (Pm : peek_mask w3 s3 = Ok (repeat true (length (hget w1 e)))).
  { unfold peek_mask. rewrite Fit3. cbn [s3 in_px with_px]. rewrite Pa. reflexivity. }
  assert (Mv : maskval_ok (mkMaskval true [length mask] mask)) by (unfold maskval_ok; simpl; lia).
  assert (T3 : touch w3 j s3 = w3).
  { unfold touch. rewrite Fit3. reflexivity. }
  pose proof (set_mask_spec w3 j s3 _ W3 Mv I3) as S.
  rewrite Fit3, Pm in S. cbn [mv_bool mv_shape mv_data andb] in S. rewrite T3 in S.
  assert (Fe : full w1 s1 KEigs = hget w1 e).
  { unfold full. destruct A as (_ & _ & A3 & _). change (oper_of w2 s1) with (oper_of w1 s1) in A3. now rewrite A3. }
  rewrite Fe. rewrite repeat_length in S.
  destruct (Nat.eqb_spec (length mask) (length (hget w1 e))) as [L|L].
  - destruct (list_eq_dec Nat.eq_dec [length mask] _) as [Sh|Sh]; [|congruence].
    destruct S as (s4 & p4 & px4 & I4 & P4 & Q4 & M4 & ->).
    rewrite I3 in I4. injection I4 as <-. injection P4 as <-.
    rewrite Pa in Q4. injection Q4 as <-.
    exists s1. split; [auto|]. repeat (split; [auto; congruence|]). exists m, e, b. repeat split; auto; apply A.
  - destruct (list_eq_dec Nat.eq_dec [length mask] _) as [Sh|Sh]; [congruence|]. rewrite S. auto.
Qed.

(** contents of the copy *)
Theorem copy_contents w i s key : wf w -> nth_error (insts w) i = Some s ->
  let w' := fst (step w (GetItem i key)) in
  let j := length (insts w) in
  match copy_result w s key with
  | Err x => snd (step w (GetItem i key)) = ORaise x /\ length (insts w') = length (insts w)
  | Ok mask => snd (step w (GetItem i key)) = OInst j /\
      exists t, nth_error (insts w') j = Some t /\ fitted w' t = true /\
        (forall k, peek_arr w' t k = OArr (sel mask (full w s k))) /\
        peek_mask w' t = Ok mask /\ in_ot t = in_ot s /\ in_dt t = in_dt s
  end.
Proof.
  intros W I. cbv zeta. simpl. unfold with_inst. rewrite I.
  pose proof (getitem_exact w i s key W I) as G.
  pose proof (touch_frame w i s I) as (_ & _ & _ & _ & _ & _ & Ln).
  destruct (copy_result w s key) as [mask|x].
  - destruct G as (s1 & I1 & E1 & E2 & E3 & E4 & m & e & b & A & L & ->). cbn [fst snd].
    rewrite Ln. split; auto.
    pose proof (wf_touch w i s W I) as W1.
    rewrite <- Ln.
    set (w1 := touch w i s) in *.
    destruct (copy_arrays w1 i s1 m e b mask W1 I1 A) as (Old & C0 & C1 & C2). cbv zeta in *.
    change (hget (add_inst w1 s1) e) with (hget w1 e) in *.
    set (w3 := alloc_world _ _ _ _ _ _) in *. set (px := fresh_px _ _ _ _ _) in *.
    set (w4 := mask_world w3 _ px mask) in *.
    set (s3 := with_px s1 (Some (length (proxies w1)))).
    assert (Pa : proxy_at w4 (length (proxies w1)) =
       Some (fresh_px (flush w3 px) (px_om px) (px_oe px) (px_oa px) mask)).
    { unfold proxy_at, w4, mask_world; simpl. apply nth_error_upd_eq.
      rewrite app_length; simpl; lia. }
    assert (Fi : fitted w4 s3 = true).
    { unfold fitted. change (oper_of w4 s3) with (oper_of w1 s1). destruct A as (_ & A2 & _). now rewrite A2. }
    exists s3. split.
    { change (nth_error (insts w3) (length (insts w1)) = Some s3). unfold w3. rewrite insts_alloc_copy.
      now rewrite nth_error_app2, Nat.sub_diag. }
    split; auto. split; [|split].
    + intros k. unfold peek_arr. rewrite Fi. cbn [s3 with_px in_px]. rewrite Pa.
      rewrite <- (touch_full w i s s1 k W I E1 E2). fold w1.
      unfold full. pose proof A as (A1 & A2 & A3 & _). rewrite A1, A2, A3.
      destruct k; cbn [fresh_px px_prox orig3 px_m px_e px_a]; rewrite ?next_flush; congruence.
    + unfold peek_mask. rewrite Fi. cbn [s3 with_px in_px]. rewrite Pa. reflexivity.
    + split; auto.
  - destruct G as [-> | ->]; auto.
Qed.

(** in-place edits of an array of [i] that were not flushed are absent from the copy *)
Theorem pending_edit_absent w i k n v key k' : reach w ->
  let h := length (handles w) in let j := length (insts w) in
  let w1 := fst (step w (Get i k)) in
  let w2 := fst (step w1 (Edit h n v)) in
  snd (step w2 (GetItem i key)) = snd (step w1 (GetItem i key)) /\
  snd (run w2 [GetItem i key; Get j k']) = snd (run w1 [GetItem i key; Get j k']).
Proof.
  intros R. cbv zeta. pose proof (reach_wf _ R) as W.
  assert (Wg : wf (fst (step w (Get i k)))) by (apply wf_step; simpl; auto).
  set (w1 := fst (step w (Get i k))) in *.
  set (w2 := fst (step w1 (Edit (length (handles w)) n v))).
  assert (W2 : wf w2) by (apply wf_step; simpl; auto).
  assert (Hs : forall s1 , nth_error (insts w1) i = Some s1 ->
     insts w2 = insts w1 /\ copy_result w2 s1 key = copy_result w1 s1 key /\
     (copy_result w1 s1 key <> Err RuntimeError -> forall x, copy_result w1 s1 key = Ok x -> forall q, full w2 s1 q = full w1 s1 q)).
  { intros s1 I1.
    destruct (nth_error (insts w) i) as [s|] eqn:I.
    2: { unfold w1 in I1. simpl in I1. unfold with_inst in I1. rewrite I in I1. cbn in I1. congruence. }
    destruct (touch_frame w i s I) as (T1 & T2 & Hh & T4 & T5 & T6 & T7).
    destruct (step_get_peek w i s k I) as [_ [E | (l & E)]]; fold w1 in E.
    - unfold w2. rewrite E. simpl. rewrite Hh.
      replace (nth_error (handles w) (length (handles w))) with (@None loc)
         by (symmetry; apply nth_error_None; lia). auto.
    - pose proof (get_handle w i s k I l E) as Hl. unfold w2. rewrite E. simpl. rewrite Hh.
      rewrite nth_error_app2, Nat.sub_diag by auto. simpl.
      destruct (Nat.ltb_spec n (length (hget (add_handle (touch w i s) l) l))); [|auto].
      cbn [fst].
      destruct (owned_touch w i s W I (reach_owned _ R)) as (T & Ow).
      pose proof (wf_touch _ _ _ W I) as Wt.
      rewrite E in I1. change (nth_error (insts (touch w i s)) i = Some s1) in I1.
      clear Hh E. clearbody w1. clear w2 W2.
      set (wt := touch w i s) in *.
      set (we := hset (add_handle wt l) l (upd (hget (add_handle wt l) l) n v)).
      assert (Len : forall l', length (hget we l') = length (hget wt l')).
      { intros l'. apply (length_hset (add_handle wt l)). rewrite length_upd. reflexivity. }
      destruct Hl as [(s1' & p & px & I1' & P1 & Q1 & El)|(Pn & Bn & T0 & Fi & Ho)].
      + rewrite I1 in I1'. injection I1' as <-.
        destruct (g_px _ _ Ow _ _ _ _ k I1 P1 Q1) as [R1 _]. rewrite <- El in R1.
        assert (Oo : nth_error (opers wt) (in_op s1) = Some (oper_of wt s1)).
        { unfold oper_of. apply nth_error_nth'. apply (nth_error_wf _ _ _ Wt I1). }
        assert (Fu : forall q, full we s1 q = full wt s1 q).
        { intros q. unfold full. change (oper_of we s1) with (oper_of wt s1). destruct q.
          - destruct (o_modes (oper_of wt s1)) as [l0|] eqn:E0; auto.
            apply (hget_hset_neq (add_handle wt l)). intros <-.
            assert (T l = TF (in_op s1)) by (eapply (g_op _ _ Ow); eauto). congruence.
          - destruct (o_eigs (oper_of wt s1)) as [l0|] eqn:E0; auto.
            apply (hget_hset_neq (add_handle wt l)). intros <-.
            assert (T l = TF (in_op s1)) by (eapply (g_op _ _ Ow); eauto). congruence.
          - destruct (in_b s1) as [l0|] eqn:E0; auto.
            apply (hget_hset_neq (add_handle wt l)). intros <-.
            assert (T l = TF (in_op s1)) by (eapply (g_b _ _ Ow); eauto). congruence. }
        split; auto. split; auto.
        unfold copy_result. change (full (add_handle wt l) s1 KEigs) with (full wt s1 KEigs).
        rewrite Fu.
        assert (AC : alloc_check we s1 = alloc_check (add_handle wt l) s1).
        { unfold alloc_check. change (oper_of we s1) with (oper_of wt s1).
          change (oper_of (add_handle wt l) s1) with (oper_of wt s1).
          change (hget (add_handle wt l)) with (hget wt).
          destruct (in_b s1); auto. destruct (o_modes _); auto. destruct (o_eigs _); auto.
          rewrite !Len. reflexivity. }
        rewrite AC.
        assert (PM : peek_mask we s1 = peek_mask (add_handle wt l) s1).
        { unfold peek_mask. rewrite P1. reflexivity. }
        rewrite PM. reflexivity.
      + assert (Ew : we = hset (add_handle w l) l (upd (hget (add_handle w l) l) n v)).
        { unfold we. now rewrite T0. }
        clearbody we. clearbody wt. subst wt. rewrite I in I1. injection I1 as <-.
        rewrite Ew. split; auto.
        assert (PM1 : peek_mask (hset (add_handle w l) l (upd (hget (add_handle w l) l) n v)) s = Err AttributeError).
        { unfold peek_mask. change (fitted (hset (add_handle w l) l (upd (hget (add_handle w l) l) n v)) s) with (fitted w s). rewrite Fi, Pn, Bn.
          unfold alloc_check. now rewrite Bn. }
        assert (PM2 : peek_mask (add_handle w l) s = Err AttributeError).
        { unfold peek_mask. change (fitted (add_handle w l) s) with (fitted w s). rewrite Fi, Pn, Bn.
          unfold alloc_check. now rewrite Bn. }
        split.
        * unfold copy_result. rewrite PM1, PM2. reflexivity.
        * intros _ x C. unfold copy_result in C. rewrite PM2 in C. destruct (check_key key); discriminate. }
  assert (Li : length (insts w1) = length (insts w)).
  { destruct (nth_error (insts w) i) as [s|] eqn:I.
    - destruct (step_get_peek w i s k I) as [_ [E | (l & E)]]; fold w1 in E; rewrite E; apply touch_frame; auto.
    - unfold w1. simpl. unfold with_inst. now rewrite I. }
  destruct (nth_error (insts w1) i) as [s1|] eqn:I1.
  - destruct (Hs s1 eq_refl) as (Ei & Ec & Ef).
    assert (I2 : nth_error (insts w2) i = Some s1) by congruence.
    pose proof (copy_contents w1 i s1 key Wg I1) as C1.
    pose proof (copy_contents w2 i s1 key W2 I2) as C2. cbv zeta in C1, C2.
    rewrite Ec in C2. rewrite Ei in C2.
    destruct (copy_result w1 s1 key) as [mask|x] eqn:CR.
    + destruct C1 as (O1 & t1 & J1 & F1 & A1 & _). destruct C2 as (O2 & t2 & J2 & F2 & A2 & _).
      split; [congruence|].
      assert (Q1 := proj1 (step_get_peek _ _ _ k' J1)). assert (Q2 := proj1 (step_get_peek _ _ _ k' J2)).
      rewrite A1 in Q1. rewrite A2 in Q2. rewrite (Ef ltac:(discriminate) _ eq_refl) in Q2.
      rewrite Li in Q1, Q2. cbn [run].
      destruct (step w2 (GetItem i key)) as [v2 o2]. destruct (step w1 (GetItem i key)) as [v1 o1].
      cbn [fst snd] in *. destruct (step v2 (Get (length (insts w)) k')), (step v1 (Get (length (insts w)) k')).
      cbn [fst snd] in *. congruence.
    + destruct C1 as (O1 & L1). destruct C2 as (O2 & L2). split; [congruence|].
      cbn [run].
      destruct (step w2 (GetItem i key)) as [v2 o2]. destruct (step w1 (GetItem i key)) as [v1 o1].
      cbn [fst snd] in *.
      assert (N1 : nth_error (insts v1) (length (insts w)) = None) by (apply nth_error_None; lia).
      assert (N2 : nth_error (insts v2) (length (insts w)) = None) by (apply nth_error_None; lia).
      unfold step, with_inst. rewrite N1, N2. cbn [snd]. congruence.
  - assert (w2 = w1).
    { unfold w2. destruct (nth_error (insts w) i) as [s|] eqn:I.
      - destruct (touch_inst w i s I) as (s1 & T & _).
        destruct (step_get_peek w i s k I) as [_ [E | (l & E)]]; fold w1 in E; rewrite E in I1; simpl in I1; congruence.
      - unfold w1. simpl. unfold with_inst. rewrite I. cbn [fst].
        replace (nth_error (handles w) (length (handles w))) with (@None loc)
         by (symmetry; apply nth_error_None; lia). reflexivity. }
    rewrite H. auto.
Qed.

(** ** Time dictionaries shared by original and copy *)
Definition shares_time w i j : Prop :=
  exists s t, nth_error (insts w) i = Some s /\ nth_error (insts w) j = Some t /\
    in_ot s = in_ot t /\ in_dt s = in_dt t.

Lemma shares_time_out w i j a : shares_time w i j ->
  snd (step w (TimeGet i a)) = snd (step w (TimeGet j a)).
Proof.
  intros (s & t & I & J & E1 & E2). simpl. unfold with_inst. rewrite I, J. cbn [snd].
  unfold get_time. destruct a; simpl; now rewrite ?E1, ?E2.
Qed.

(** [o] does not give [i] a new time dictionary *)
Definition keeps_time (i : nat) (o : op V) : Prop :=
  match o with Fit i' _ | TimeAssign i' _ => i' <> i | _ => True end.

Lemma step_keeps_time w o i s : wf w -> op_ok o -> keeps_time i o -> nth_error (insts w) i = Some s ->
  exists s', nth_error (insts (fst (step w o))) i = Some s' /\ in_ot s' = in_ot s /\ in_dt s' = in_dt s.
Proof.
  intros W Ok K I.
  assert (TT : forall i0 s0, nth_error (insts w) i0 = Some s0 ->
    exists s', nth_error (insts (touch w i0 s0)) i = Some s' /\ in_ot s' = in_ot s /\ in_dt s' = in_dt s).
  { intros i0 s0 I0. destruct (Nat.eq_dec i i0) as [->|N].
    - rewrite I in I0. injection I0 as <-. destruct (touch_inst w i0 s I) as (s1 & A & B & C & D & E). eauto.
    - rewrite touch_insts; eauto. }
  destruct o; simpl in *; unfold with_inst, of_unit;
    try (destruct (nth_error (insts w) i0) as [s0|] eqn:I0; [|eauto]).
  - exists s. rewrite nth_error_app1; auto. apply nth_error_Some; congruence.
  - destruct (fit_shape w i0 s0 f I0) as (s' & x & F1 & _). cbn [fst]. rewrite F1.
    exists s. rewrite nth_error_upd_neq; auto.
  - pose proof (get_arr_world w i0 s0 k I0) as T. specialize (TT _ _ I0).
    destruct (get_arr w i0 s0 k) as [w1 [[l|]|x]]; cbn [fst] in *; rewrite <- T in TT; auto.
  - destruct (nth_error (handles w) h) as [l|]; [|eauto].
    destruct (Nat.ltb_spec j (length (hget w l))); eauto.
  - rewrite (get_mask_peek w i0 s0 I0). cbn [fst]. auto.
  - pose proof (set_mask_spec w i0 s0 v W Ok I0) as S. cbn [fst].
    destruct (fitted w s0 && mv_bool v); [|rewrite S; eauto].
    destruct (peek_mask w s0) as [m|]; [|rewrite S; eauto].
    destruct (list_eq_dec _ _ _); [|rewrite S; eauto].
    destruct S as (s1 & p & px & _ & _ & _ & _ & ->). cbn [fst]. apply (TT _ _ I0).
  - pose proof (getitem_exact w i0 s0 k W I0) as G.
    destruct (copy_result w s0 k) as [mask|x].
    + destruct G as (s1 & I1 & _ & _ & _ & _ & m & e & b & A & L & ->). cbn [fst].
      destruct (TT _ _ I0) as (s' & Q & Q').
      exists s'. split; auto.
      change (nth_error (insts (alloc_world (add_inst (touch w i0 s0) s1) (length (insts (touch w i0 s0))) s1 m e b)) i = Some s').
      rewrite insts_alloc_copy, nth_error_app1; auto. apply nth_error_Some; congruence.
    + destruct G as [-> | ->]; cbn [fst]; eauto.
  - eauto.
  - unfold time_setitem. destruct (get_time w s0 a); [|eauto]. destruct (_ && _); eauto.
  - unfold time_update. destruct (get_time w s0 a); eauto.
  - unfold time_delitem. destruct (get_time w s0 a); [|eauto]. destruct (d_get _ _); eauto.
  - unfold assign_time. destruct v as [D0|]; [destruct (_ && _); [eauto|]|]; cbn [fst insts set_inst add_dict];
      exists s; rewrite nth_error_upd_neq; auto.
  - eauto.
Qed.

Theorem copy_time_shared w i key j os a : wf w ->
  snd (step w (GetItem i key)) = OInst j ->
  Forall op_ok os -> Forall (keeps_time i) os -> Forall (keeps_time j) os ->
  let w' := fst (run (fst (step w (GetItem i key))) os) in
  snd (step w' (TimeGet i a)) = snd (step w' (TimeGet j a)).
Proof.
  intros W G Oo Ki Kj. cbv zeta. apply shares_time_out.
  assert (W1 : wf (fst (step w (GetItem i key)))) by (apply wf_step; simpl; auto).
  assert (S0 : shares_time (fst (step w (GetItem i key))) i j).
  { destruct (nth_error (insts w) i) as [s|] eqn:I.
    - pose proof (copy_contents w i s key W I) as C. cbv zeta in C.
      destruct (step_keeps_time w (GetItem i key) i s W Logic.I Logic.I I) as (s' & I' & A & B).
      destruct (copy_result w s key); [|destruct C; congruence].
      destruct C as (O & t & J & _ & _ & _ & Eo & Ed). rewrite O in G. injection G as <-.
      exists s', t. repeat split; auto; congruence.
    - simpl in G. unfold with_inst in G. rewrite I in G. discriminate. }
  revert W1 S0. generalize (fst (step w (GetItem i key))). clear G W w. intros w W S0.
  revert w W S0. induction os as [|o os IH]; intros w W S0; auto.
  inversion Oo; inversion Ki; inversion Kj; subst. rewrite run_fst. apply IH; auto; [now apply wf_step|].
  destruct S0 as (s & t & I & J & E1 & E2).
  destruct (step_keeps_time w o i s) as (s' & I' & A & B); auto.
  destruct (step_keeps_time w o j t) as (t' & J' & C & D); auto.
  exists s', t'. repeat split; auto; congruence.
Qed.

(** ** C05 *)
Lemma d_put_keys d k v : In k (map fst d) -> map fst (d_put d k v) = map fst d.
Proof.
  induction d as [|[k' v'] d IH]; simpl; [contradiction|].
  destruct (String.eqb_spec k k') as [->|N]; simpl; auto.
  intros [->|H]; [congruence|]. f_equal. auto.
Qed.
Lemma d_get_put d k v k' : d_get (d_put d k v) k' = if String.eqb k' k then Some v else d_get d k'.
Proof.
  induction d as [|[k0 v0] d IH]; simpl; auto.
  destruct (String.eqb_spec k k0) as [->|N]; simpl.
  - destruct (String.eqb_spec k' k0); auto.
  - rewrite IH. destruct (String.eqb_spec k' k0), (String.eqb_spec k' k); congruence.
Qed.

Definition keyinv w : Prop := forall i s a d, nth_error (insts w) i = Some s -> time_ref s a = Some d ->
  d_checked (dict_at w d) = true /\ map fst (d_items (dict_at w d)) = time_keys.

(** how one operation acts on instances and dictionaries *)
Lemma step_time_shape w o : wf w -> op_ok o ->
  let w' := fst (step w o) in
  (forall d, d < length (dicts w) ->
     match o with TimeSet _ _ _ _ | TimeUpdate _ _ _ _ | TimeDel _ _ _ => True
     | _ => dict_at w' d = dict_at w d end) /\
  length (dicts w) <= length (dicts w') /\
  (forall i' s', nth_error (insts w') i' = Some s' ->
    (in_ot s' = None /\ in_dt s' = None) \/
    (exists i s, nth_error (insts w) i = Some s /\ in_ot s' = in_ot s /\ in_dt s' = in_dt s) \/
    (in_ot s' = Some (length (dicts w)) /\ in_dt s' = Some (S (length (dicts w))) /\
       exists n D, length (dicts w') = S (S (length (dicts w))) /\ D = mkDict true
             [("t0", 0); ("tend", inject_Z (Z.of_nat n) - 1); ("dt", 1)]%string%Q /\
         dict_at w' (length (dicts w)) = D /\ dict_at w' (S (length (dicts w))) = D) \/
    (exists i s D, o = TimeAssign i (Some D) /\ nth_error (insts w) i = Some s /\ in_ot s' = in_ot s /\
       in_dt s' = Some (length (dicts w)) /\ length (dicts w') = S (length (dicts w)) /\
       dict_at w' (length (dicts w)) = D) \/
    (exists i s, o = TimeAssign i None /\ nth_error (insts w) i = Some s /\ in_ot s' = in_ot s /\ in_dt s' = None)).
Proof.
  intros W Ok. cbv zeta.
  assert (TT : forall i0 s0, nth_error (insts w) i0 = Some s0 -> forall i' s', nth_error (insts (touch w i0 s0)) i' = Some s' ->
    exists i s, nth_error (insts w) i = Some s /\ in_ot s' = in_ot s /\ in_dt s' = in_dt s).
  { intros i0 s0 I0 i' s' I'. destruct (Nat.eq_dec i' i0) as [->|N].
    - destruct (touch_inst w i0 s0 I0) as (s1 & A & B & C & D & E). rewrite A in I'. injection I' as <-. eauto.
    - rewrite touch_insts in I'; eauto. }
  assert (TD : forall i0 s0, nth_error (insts w) i0 = Some s0 -> dicts (touch w i0 s0) = dicts w).
  { intros i0 s0 I0. apply touch_frame; auto. }
  destruct o; simpl; unfold with_inst, of_unit;
    try (destruct (nth_error (insts w) i) as [s|] eqn:I; [|split; [auto|split; [auto|right; left; eauto]]]).
  - split; [auto|]. split; [auto|]. intros i' s' I'.
    destruct (Nat.lt_ge_cases i' (length (insts w))) as [L|L].
    + rewrite nth_error_app1 in I' by auto. right; left; eauto.
    + rewrite nth_error_app2 in I' by auto.
      destruct (i' - length (insts w)) as [|[|]]; simpl in I'; try discriminate. injection I' as <-. auto.
  - unfold fit. cbn [fst]. destruct f; cbn [fst].
    + cbn. split.
      { intros d H. unfold dict_at; simpl. rewrite !app_nth1; auto; rewrite ?app_length; simpl; lia. }
      split; [rewrite !app_length; simpl; lia|].
      intros i' s' I'. assert (Li : i < length (insts w)) by (apply nth_error_Some; congruence).
      destruct (Nat.eq_dec i' i) as [->|N].
      2: { rewrite ?nth_error_upd_neq in I' by auto. right; left; eauto. }
      rewrite nth_error_upd_eq in I' by (rewrite ?length_upd; auto). injection I' as <-.
      right; right; left. split; [reflexivity|]. split; [cbn; f_equal; rewrite app_length; simpl; lia|].
      exists n. eexists. split; [rewrite !app_length; simpl; lia|].
      split; [reflexivity|]. unfold dict_at; cbn.
      rewrite app_assoc_reverse. simpl.
      rewrite !app_nth2 by lia. rewrite Nat.sub_diag.
      replace (S (length (dicts w)) - length (dicts w)) with 1 by lia. auto.
    + split; [auto|]. split; [auto|]. cbn. intros i' s' I'. apply nth_upd_lookup in I' as [[-> ->]|[N I']]; right; left; eauto.
    + split; [auto|]. split; [auto|]. cbn. intros i' s' I'. apply nth_upd_lookup in I' as [[-> ->]|[N I']]; right; left; eauto.
    + split; [auto|]. split; [auto|]. cbn. intros i' s' I'. apply nth_upd_lookup in I' as [[-> ->]|[N I']]; right; left; eauto.
    + cbn. split.
      { intros d H. unfold dict_at; simpl. rewrite !app_nth1; auto; rewrite ?app_length; simpl; lia. }
      split; [rewrite !app_length; simpl; lia|].
      intros i' s' I'. assert (Li : i < length (insts w)) by (apply nth_error_Some; congruence).
      destruct (Nat.eq_dec i' i) as [->|N].
      2: { rewrite ?nth_error_upd_neq in I' by auto. right; left; eauto. }
      rewrite nth_error_upd_eq in I' by (rewrite ?length_upd; auto). injection I' as <-.
      right; right; left. split; [reflexivity|]. split; [cbn; f_equal; rewrite app_length; simpl; lia|].
      exists n. eexists. split; [rewrite !app_length; simpl; lia|].
      split; [reflexivity|]. unfold dict_at; cbn.
      rewrite app_assoc_reverse. simpl.
      rewrite !app_nth2 by lia. rewrite Nat.sub_diag.
      replace (S (length (dicts w)) - length (dicts w)) with 1 by lia. auto.
  - pose proof (get_arr_world w i s k I) as T. specialize (TT _ _ I). specialize (TD _ _ I).
    destruct (get_arr w i s k) as [w1 [[l|]|x]]; cbn [fst] in *; rewrite <- T in TT, TD;
      (split; [intros; unfold dict_at; simpl; now rewrite TD|split; [simpl; now rewrite TD|]]);
      intros i' s' I'; right; left; eauto.
  - destruct (nth_error (handles w) h) as [l|]; [|split; [auto|split; [auto|right; left; eauto]]].
    destruct (Nat.ltb_spec j (length (hget w l))); (split; [auto|split; [auto|right; left; eauto]]).
  - rewrite (get_mask_peek w i s I). cbn [fst].
    split; [intros; unfold dict_at; now rewrite TD|]. split; [now rewrite TD|]. right; left; eauto.
  - pose proof (set_mask_spec w i s v W Ok I) as S. cbn [fst].
    destruct (fitted w s && mv_bool v); [|rewrite S; split; [auto|split; [auto|right; left; eauto]]].
    assert (Q : (forall d : nat, d < length (dicts w) -> dict_at (touch w i s) d = dict_at w d) /\
       length (dicts w) <= length (dicts (touch w i s)))
      by (split; [intros; unfold dict_at|]; now rewrite TD).
    destruct Q as [Q1 Q2].
    destruct (peek_mask w s) as [m|]; [|rewrite S; cbn [fst]; split; [auto|split; [auto|right; left; eauto]]].
    destruct (list_eq_dec _ _ _); [|rewrite S; cbn [fst]; split; [auto|split; [auto|right; left; eauto]]].
    destruct S as (s1 & p & px & _ & _ & _ & _ & ->). cbn [fst].
    split; [exact Q1|]. split; [exact Q2|]. intros i' s' I'. right; left. exact (TT _ _ I _ _ I').
  - pose proof (getitem_exact w i s k W I) as G.
    assert (Q : (forall d : nat, d < length (dicts w) -> dict_at (touch w i s) d = dict_at w d) /\
       length (dicts w) <= length (dicts (touch w i s)))
      by (split; [intros; unfold dict_at|]; now rewrite TD).
    destruct Q as [Q1 Q2].
    destruct (copy_result w s k) as [mask|x].
    + destruct G as (s1 & I1 & E1 & E2 & E3 & E4 & m & e & b & A & L & ->). cbn [fst].
      split; [exact Q1|]. split; [exact Q2|]. intros i' s' I'. right; left.
      change (nth_error (insts (alloc_world (add_inst (touch w i s) s1) (length (insts (touch w i s))) s1 m e b)) i' = Some s') in I'.
      rewrite insts_alloc_copy in I'.
      destruct (Nat.lt_ge_cases i' (length (insts (touch w i s)))) as [L'|L'].
      * rewrite nth_error_app1 in I'; eauto.
      * rewrite nth_error_app2 in I' by auto.
        destruct (i' - length (insts (touch w i s))) as [|[|]]; simpl in I'; try discriminate. injection I' as <-.
        exists i, s. auto.
    + destruct G as [-> | ->]; cbn [fst]; (split; [auto|split; [auto|right; left; eauto]]).
  - split; [auto|split; [auto|right; left; eauto]].
  - unfold time_setitem. destruct (get_time w s a); [|split; [auto|split; [auto|right; left; eauto]]].
    destruct (_ && _); cbn; (split; [auto|split; [rewrite ?length_upd; auto|right; left; eauto]]).
  - unfold time_update. destruct (get_time w s a); cbn; (split; [auto|split; [rewrite ?length_upd; auto|right; left; eauto]]).
  - unfold time_delitem. destruct (get_time w s a); [|split; [auto|split; [auto|right; left; eauto]]].
    destruct (d_get _ _); cbn; (split; [auto|split; [rewrite ?length_upd; auto|right; left; eauto]]).
  - unfold assign_time. destruct v as [D0|].
    + destruct (_ && _); [split; [auto|split; [auto|right; left; eauto]]|]. cbn.
      split; [intros d H; unfold dict_at; simpl; rewrite app_nth1; auto|].
      split; [rewrite app_length; simpl; lia|]. intros i' s' I'.
      apply nth_upd_lookup in I' as [[-> ->]|[N I']]; [|right; left; eauto].
      right; right; right; left. exists i, s, D0. repeat split; auto.
      * rewrite app_length; simpl; lia.
      * unfold dict_at; simpl. rewrite app_nth2, Nat.sub_diag; auto.
    + cbn. split; [auto|]. split; [auto|]. intros i' s' I'.
      apply nth_upd_lookup in I' as [[-> ->]|[N I']]; [|right; left; eauto].
      right; right; right; right. exists i, s. auto.
  - split; [auto|split; [auto|right; left; eauto]].
Qed.

Lemma wf_bound w i s a d : wf w -> nth_error (insts w) i = Some s -> time_ref s a = Some d -> d < length (dicts w).
Proof.
  intros W I E. apply nth_error_wf in I as (_ & _ & _ & A & B & _); auto.
  destruct a; simpl in E; rewrite E in *; auto.
Qed.

Definition disjoint_times w : Prop := forall i j s t d,
  nth_error (insts w) i = Some s -> nth_error (insts w) j = Some t ->
  in_ot s = Some d -> in_dt t <> Some d.

Lemma disjoint_step w o : wf w -> op_ok o -> disjoint_times w -> disjoint_times (fst (step w o)).
Proof.
  intros W Ok H i j s t d I J E1 E2.
  destruct (step_time_shape w o W Ok) as (_ & _ & S).
  pose proof (fun i s => wf_bound w i s Original d W) as Bo. pose proof (fun i s => wf_bound w i s Dmd d W) as Bd.
  simpl in Bo, Bd.
  destruct (S i s I) as [(A1 & _)|[(i1 & s1 & I1 & A1 & A2)|[(A1 & A2 & n1 & D3 & LA & _)|[(i1 & s1 & D1 & _ & I1 & A1 & A2 & _)|(i1 & s1 & _ & I1 & A1 & A2)]]]];
  destruct (S j t J) as [(_ & B2)|[(j1 & t1 & J1 & B1 & B2)|[(B1 & B2 & _)|[(j1 & t1 & D2 & _ & J1 & B1 & B2 & LB & _)|(j1 & t1 & _ & J1 & B1 & B2)]]]];
  try congruence;
  try (rewrite A1 in E1; rewrite B2 in E2;
       first [ exact (H _ _ _ _ _ I1 J1 E1 E2)
             | specialize (Bo _ _ I1 E1); injection E2 as <-; lia
             | specialize (Bd _ _ J1 E2); injection E1 as <-; lia
             | injection E1 as <-; injection E2 as E2; lia | lia]).
Qed.

Lemma disjoint_reach os : Forall op_ok os -> disjoint_times (fst (run (@empty_world V) os)).
Proof.
  assert (G : forall os w, wf w -> disjoint_times w -> Forall op_ok os -> disjoint_times (fst (run w os))).
  { clear. induction os as [|o os IH]; intros w W D F; auto. inversion F; subst. rewrite run_fst.
    apply IH; auto; [now apply wf_step|now apply disjoint_step]. }
  intros F. apply G; auto; [apply wf_empty|]. intros [|i]; discriminate.
Qed.

(** item assignment (of any kind) on one of the two dictionaries never shows in the other *)
Theorem time_isolated w i j a a' o : wf w -> disjoint_times w -> a <> a' ->
  match o with
  | TimeSet i' b _ _ | TimeUpdate i' b _ _ | TimeDel i' b _ => i' = i /\ b = a
  | _ => False end ->
  snd (step (fst (step w o)) (TimeGet j a')) = snd (step w (TimeGet j a')).
Proof.
  intros W Dj N Ho.
  assert (M : insts (fst (step w o)) = insts w /\
     forall t d', nth_error (insts w) j = Some t -> time_ref t a' = Some d' ->
       dict_at (fst (step w o)) d' = dict_at w d').
  { assert (Nd : forall s t d d', nth_error (insts w) i = Some s -> nth_error (insts w) j = Some t ->
       time_ref s a = Some d -> time_ref t a' = Some d' -> d <> d').
    { intros s t d d' I J E1 E2 <-. destruct a, a'; simpl in *; try congruence.
      - exact (Dj _ _ _ _ _ I J E1 E2).
      - exact (Dj _ _ _ _ _ J I E2 E1). }
    assert (U : forall d d' x, d <> d' -> nth d' (upd (dicts w) d x) (mkDict true []) = nth d' (dicts w) (mkDict true [])).
    { intros. now apply nth_upd_neq. }
    destruct o; try contradiction; destruct Ho as [-> ->]; simpl; unfold with_inst, of_unit;
      (destruct (nth_error (insts w) i) as [s|] eqn:I; [|auto]); cbn [fst];
      unfold time_setitem, time_update, time_delitem, get_time;
      (destruct (time_ref s a) as [d|] eqn:E; [|auto]).
    - destruct (_ && _); cbn; auto. split; auto. intros t d' J E'. unfold dict_at; simpl. apply U. eapply Nd; eauto.
    - cbn. split; auto. intros t d' J E'. unfold dict_at; simpl. apply U. eapply Nd; eauto.
    - destruct (d_get _ _); cbn; auto. split; auto. intros t d' J E'. unfold dict_at; simpl. apply U. eapply Nd; eauto. }
  destruct M as [M1 M2]. set (w' := fst (step w o)) in *. simpl. unfold with_inst. rewrite M1.
  destruct (nth_error (insts w) j) as [t|] eqn:J; auto. cbn [snd]. unfold get_time.
  destruct (time_ref t a') as [d'|] eqn:E; auto. now rewrite (M2 t d').
Qed.

Lemma valid_key_in k : valid_key k = true <-> In k time_keys.
Proof.
  unfold valid_key. rewrite existsb_exists. split.
  - intros (x & H & E). apply String.eqb_eq in E. now subst.
  - intros H. exists k. split; auto. apply String.eqb_refl.
Qed.

Lemma keyinv_step w o : wf w -> op_ok o -> time_op_ok o -> keyinv w -> keyinv (fst (step w o)).
Proof.
  intros W Ok Ot H i s a d I E.
  destruct (step_time_shape w o W Ok) as (Sd & Sl & S).
  set (w' := fst (step w o)) in *.
  assert (Put : forall k v d d' i0 s0 a0, nth_error (insts w) i0 = Some s0 -> time_ref s0 a0 = Some d ->
      valid_key k = true -> dicts w' = upd (dicts w) d' (mkDict (d_checked (dict_at w d')) (d_put (d_items (dict_at w d')) k v)) ->
      d_checked (dict_at w' d) = true /\ map fst (d_items (dict_at w' d)) = time_keys).
  { intros k v d0 d' i0 s0 a0 I0 E0 Vk Ew. destruct (H _ _ _ _ I0 E0) as [C1 C2].
    unfold dict_at. rewrite Ew. destruct (Nat.eq_dec d' d0) as [->|Nd].
    - rewrite nth_upd_eq by (eapply wf_bound; eauto). cbn [d_checked d_items]. split; auto.
      rewrite d_put_keys; auto. rewrite C2. now apply valid_key_in.
    - rewrite nth_upd_neq by auto. split; auto. }
  assert (Old : forall i0 s0, nth_error (insts w) i0 = Some s0 -> time_ref s0 a = Some d ->
     d_checked (dict_at w' d) = true /\ map fst (d_items (dict_at w' d)) = time_keys).
  { intros i0 s0 I0 E0. pose proof (wf_bound _ _ _ _ _ W I0 E0) as B.
    destruct o; try (rewrite Sd by auto; exact (H _ _ _ _ I0 E0)); simpl in Ot; [| |contradiction].
    - revert Put. unfold w'. simpl. unfold with_inst, of_unit.
      destruct (nth_error (insts w) i1) as [s1|] eqn:I1; [|intros _; exact (H _ _ _ _ I0 E0)].
      cbn [fst]. unfold time_setitem, get_time.
      destruct (time_ref s1 a0) as [d1|] eqn:E1; [|intros _; exact (H _ _ _ _ I0 E0)].
      destruct (H _ _ _ _ I1 E1) as [C1 C2].
      destruct (d_checked (dict_at w d1) && negb (valid_key k)) eqn:Vk; [intros _; exact (H _ _ _ _ I0 E0)|].
      rewrite C1 in Vk. cbn [andb] in Vk. apply negb_false_iff in Vk.
      intros Put. apply (Put k v d d1 i0 s0 a); auto.
    - revert Put. unfold w'. simpl. unfold with_inst, of_unit.
      destruct (nth_error (insts w) i1) as [s1|] eqn:I1; [|intros _; exact (H _ _ _ _ I0 E0)].
      cbn [fst]. unfold time_update, get_time.
      destruct (time_ref s1 a0) as [d1|] eqn:E1; [|intros _; exact (H _ _ _ _ I0 E0)].
      intros Put. apply (Put k v d d1 i0 s0 a); auto. }
  destruct (S i s I) as [(A1 & A2)|[(i1 & s1 & I1 & A1 & A2)|[(A1 & A2 & n & D & L & ED & D1 & D2)|[(i1 & s1 & D1 & Eo & I1 & A1 & A2 & L & ED)|(i1 & s1 & _ & I1 & A1 & A2)]]]].
  - destruct a; simpl in E; congruence.
  - apply (Old i1 s1); auto. destruct a; simpl in *; congruence.
  - destruct a; simpl in E.
    + rewrite A1 in E. injection E as <-. rewrite D1, ED. auto.
    + rewrite A2 in E. injection E as <-. rewrite D2, ED. auto.
  - destruct a; simpl in E.
    + apply (Old i1 s1); auto. simpl. congruence.
    + rewrite A2 in E. injection E as <-. rewrite ED. subst o. simpl in Ot. exact Ot.
  - destruct a; simpl in E; [|congruence]. apply (Old i1 s1); auto. simpl. congruence.
Qed.

Theorem time_keys_kept os i a d : Forall op_ok os -> Forall time_op_ok os ->
  snd (step (fst (run (@empty_world V) os)) (TimeGet i a)) = ODict d -> map fst d = time_keys.
Proof.
  intros F1 F2 G.
  assert (K : keyinv (fst (run (@empty_world V) os))).
  { assert (Q : forall os w, wf w -> keyinv w -> Forall op_ok os -> Forall time_op_ok os -> keyinv (fst (run w os))).
    { clear. induction os as [|o os IH]; intros w W D F1 F2; auto. inversion F1; inversion F2; subst. rewrite run_fst.
      apply IH; auto; [now apply wf_step|now apply keyinv_step]. }
    apply Q; auto; [apply wf_empty|]. intros [|i']; discriminate. }
  simpl in G. unfold with_inst in G. destruct (nth_error (insts _) i) as [s|] eqn:I; [|discriminate].
  cbn [snd] in G. unfold get_time in G. destruct (time_ref s a) as [d0|] eqn:E; [|discriminate].
  injection G as <-. exact (proj2 (K _ _ _ _ I E)).
Qed.

Theorem time_foreign_key os i a k v : Forall op_ok os -> Forall time_op_ok os ->
  ~ In k time_keys ->
  let w := fst (run (@empty_world V) os) in
  i < length (insts w) ->
  fst (step w (TimeSet i a k v)) = w /\
  (snd (step w (TimeSet i a k v)) = ORaise KeyError \/
   (snd (step w (TimeSet i a k v)) = ORaise RuntimeError /\ snd (step w (TimeGet i a)) = ORaise RuntimeError)).
Proof.
  intros F1 F2 Nk w Li.
  assert (K : keyinv w).
  { assert (Q : forall os w, wf w -> keyinv w -> Forall op_ok os -> Forall time_op_ok os -> keyinv (fst (run w os))).
    { clear. induction os as [|o os IH]; intros w W D F1 F2; auto. inversion F1; inversion F2; subst. rewrite run_fst.
      apply IH; auto; [now apply wf_step|now apply keyinv_step]. }
    apply Q; auto; [apply wf_empty|]. intros [|i']; discriminate. }
  clearbody w. simpl. unfold with_inst, of_unit.
  destruct (nth_error (insts w) i) as [s|] eqn:I; [|apply nth_error_None in I; lia].
  unfold time_setitem, get_time. destruct (time_ref s a) as [d|] eqn:E; [|auto].
  destruct (K _ _ _ _ I E) as [-> _].
  destruct (valid_key k) eqn:Vk; [apply valid_key_in in Vk; contradiction|]. auto.
Qed.

Theorem time_set_read w i a k v d : wf w ->
  snd (step w (TimeGet i a)) = ODict d -> snd (step w (TimeSet i a k v)) = OUnit ->
  snd (step (fst (step w (TimeSet i a k v))) (TimeGet i a)) = ODict (d_put d k v).
Proof.
  intros W. simpl. unfold with_inst, of_unit. destruct (nth_error (insts w) i) as [s|] eqn:I; [|discriminate].
  cbn [snd fst]. unfold time_setitem, get_time. destruct (time_ref s a) as [d0|] eqn:E; [|discriminate].
  intros H. injection H as <-.
  destruct (_ && _); [discriminate|]. intros _. cbn. rewrite I, E. unfold dict_at; simpl.
  rewrite nth_upd_eq by (eapply wf_bound; eauto). reflexivity.
Qed.

(** before fit *)
Definition unfit_inv w : Prop := forall i s, nth_error (insts w) i = Some s ->
  o_modes (oper_of w s) = None -> in_ot s = None.

Lemma unfit_step w o : wf w -> op_ok o -> unfit_inv w -> unfit_inv (fst (step w o)).
Proof.
  intros W Ok H.
  assert (Same : forall w', opers w' = opers w ->
     (forall j t, nth_error (insts w') j = Some t -> exists i s, nth_error (insts w) i = Some s /\ in_op t = in_op s /\ in_ot t = in_ot s) ->
     unfit_inv w').
  { intros w' Eo Q j t J M. destruct (Q j t J) as (i & s & I & E1 & E2). rewrite E2. apply (H i s I).
    unfold oper_of in *. now rewrite Eo, E1 in M. }
  assert (TT : forall i s, nth_error (insts w) i = Some s ->
     opers (touch w i s) = opers w /\
     (forall j t, nth_error (insts (touch w i s)) j = Some t -> exists i s, nth_error (insts w) i = Some s /\ in_op t = in_op s /\ in_ot t = in_ot s)).
  { intros i s I. split; [now apply touch_frame|]. intros j t J. destruct (Nat.eq_dec j i) as [->|N].
    - destruct (touch_inst w i s I) as (s1 & A & B & C & D & E). rewrite A in J. injection J as <-. eauto.
    - rewrite touch_insts in J; eauto. }
  destruct o; simpl; unfold with_inst, of_unit;
    try (destruct (nth_error (insts w) i) as [s|] eqn:I; [|exact H]).
  - intros j t J M. simpl in J. destruct (Nat.lt_ge_cases j (length (insts w))) as [L|L].
    + rewrite nth_error_app1 in J by auto. apply (H j t J).
      pose proof (nth_error_wf _ _ _ W J) as (K & _). unfold oper_of in *; simpl in M. now rewrite app_nth1 in M.
    + rewrite nth_error_app2 in J by auto.
      destruct (j - length (insts w)) as [|[|]]; simpl in J; try discriminate. injection J as <-. auto.
  - cbn [fst]. pose proof (nth_error_wf _ _ _ W I) as (K0 & _).
    destruct (fit_shape w i s f I) as (s' & x & F1 & F2 & F3 & F4 & F5 & F6 & F7 & F8 & F9 & F10 & F11).
    assert (MX : o_modes (oper_of w s) <> None -> o_modes x <> None).
    { assert (Ex : x = oper_of (fst (fit w i s f)) s').
      { unfold oper_of. rewrite F2, F3. now rewrite nth_upd_eq. }
      intros Hm. rewrite Ex. unfold fit. destruct f; cbn [fst].
      - unfold oper_of. cbn. rewrite F3. rewrite nth_upd_eq; [discriminate|now rewrite length_upd].
      - exact Hm || (unfold oper_of in *; cbn; now rewrite F3).
      - unfold oper_of in *; cbn; now rewrite F3.
      - unfold oper_of in *. cbn. rewrite F3. now rewrite nth_upd_eq.
      - unfold oper_of. cbn. rewrite F3. rewrite nth_upd_eq; [discriminate|now rewrite length_upd]. }
    intros j t J M. rewrite F1 in J. unfold oper_of in M. rewrite F2 in M.
    apply nth_upd_lookup in J as [[-> ->]|[N J]].
    + rewrite F3, nth_upd_eq in M by auto.
      assert (M0 : o_modes (oper_of w s) = None).
      { destruct (o_modes (oper_of w s)) eqn:Q; auto. exfalso. apply MX; [discriminate|auto]. }
      assert (Q : insts (fst (fit w i s f)) = upd (insts w) i s') by exact F1.
      assert (J2 : nth_error (insts (fst (fit w i s f))) i = Some s').
      { rewrite F1. apply nth_error_upd_eq, nth_error_Some. congruence. }
      assert (Ex : x = oper_of (fst (fit w i s f)) s').
      { unfold oper_of. rewrite F2, F3. now rewrite nth_upd_eq. }
      pose proof (H i s I M0) as Hot.
      revert J2 M Ex. unfold fit. destruct f; cbn [fst]; cbn; intros J2 M Ex.
      * exfalso. rewrite Ex in M. unfold oper_of in M. cbn in M. rewrite F3, nth_upd_eq in M; [discriminate|now rewrite length_upd].
      * rewrite nth_error_upd_eq in J2 by (apply nth_error_Some; congruence). injection J2 as <-. exact Hot.
      * rewrite nth_error_upd_eq in J2 by (apply nth_error_Some; congruence). injection J2 as <-. exact Hot.
      * rewrite nth_error_upd_eq in J2 by (apply nth_error_Some; congruence). injection J2 as <-. exact Hot.
      * exfalso. rewrite Ex in M. unfold oper_of in M. cbn in M. rewrite F3, nth_upd_eq in M; [discriminate|now rewrite length_upd].
    + destruct (Nat.eq_dec (in_op t) (in_op s)) as [Et|Nt].
      * apply (H j t J). unfold oper_of. rewrite Et in *. rewrite nth_upd_eq in M by auto.
        destruct (o_modes (nth (in_op s) (opers w) (mkOper None None))) eqn:Q; auto.
        exfalso. apply MX; auto. unfold oper_of. congruence.
      * rewrite nth_upd_neq in M by auto. exact (H j t J M).
  - pose proof (get_arr_world w i s k I) as T. destruct (TT _ _ I) as [T1 T2].
    destruct (get_arr w i s k) as [w1 [[l|]|x]]; cbn [fst] in *; subst w1; apply Same; auto.
  - destruct (nth_error (handles w) h) as [l|]; [|exact H].
    destruct (Nat.ltb_spec j (length (hget w l))); exact H.
  - rewrite (get_mask_peek w i s I). cbn [fst]. destruct (TT _ _ I). now apply Same.
  - pose proof (set_mask_spec w i s v W Ok I) as S. cbn [fst]. destruct (TT _ _ I) as [T1 T2].
    destruct (fitted w s && mv_bool v); [|rewrite S; exact H].
    destruct (peek_mask w s) as [m|]; [|rewrite S; now apply Same].
    destruct (list_eq_dec _ _ _); [|rewrite S; now apply Same].
    destruct S as (s1 & p & px & _ & _ & _ & _ & ->). cbn [fst]. apply Same; [exact T1|exact T2].
  - pose proof (getitem_exact w i s k W I) as G. destruct (TT _ _ I) as [T1 T2].
    destruct (copy_result w s k) as [mask|x].
    + destruct G as (s1 & I1 & E1 & E2 & E3 & E4 & m & e & b & A & L & ->). cbn [fst].
      apply Same; [exact T1|]. intros j t J.
      change (nth_error (insts (alloc_world (add_inst (touch w i s) s1) (length (insts (touch w i s))) s1 m e b)) j = Some t) in J.
      rewrite insts_alloc_copy in J.
      destruct (Nat.lt_ge_cases j (length (insts (touch w i s)))) as [L'|L'].
      * rewrite nth_error_app1 in J; eauto.
      * rewrite nth_error_app2 in J by auto.
        destruct (j - length (insts (touch w i s))) as [|[|]]; simpl in J; try discriminate. injection J as <-.
        exists i, s. auto.
    + destruct G as [-> | ->]; cbn [fst]; auto.
  - exact H.
  - unfold time_setitem. destruct (get_time w s a); auto. destruct (_ && _); auto.
  - unfold time_update. destruct (get_time w s a); auto.
  - unfold time_delitem. destruct (get_time w s a); auto. destruct (d_get _ _); auto.
  - unfold assign_time. destruct v as [D0|]; [destruct (_ && _); auto|]; cbn [fst]; apply Same; auto;
      intros j t J; simpl in J; apply nth_upd_lookup in J as [[-> ->]|[N J]]; eauto.
  - exact H.
Qed.

Lemma unfit_reach os : Forall op_ok os -> unfit_inv (fst (run (@empty_world V) os)).
Proof.
  assert (G : forall os w, wf w -> unfit_inv w -> Forall op_ok os -> unfit_inv (fst (run w os))).
  { clear. induction os as [|o os IH]; intros w W D F; auto. inversion F; subst. rewrite run_fst.
    apply IH; auto; [now apply wf_step|now apply unfit_step]. }
  intros F. apply G; auto; [apply wf_empty|]. intros [|i]; discriminate.
Qed.

Theorem time_before_fit os i : Forall op_ok os ->
  let w := fst (run (@empty_world V) os) in
  snd (step w (Fitted i)) = OBool false ->
  snd (step w (TimeGet i Original)) = ORaise RuntimeError.
Proof.
  intros F w. pose proof (unfit_reach os F) as U. fold w in U. clearbody w. simpl. unfold with_inst.
  destruct (nth_error (insts w) i) as [s|] eqn:I; [|discriminate]. cbn [snd]. intros H. injection H as H.
  unfold fitted in H. unfold get_time; simpl. rewrite (U i s I); auto. destruct (o_modes _); auto; discriminate.
Qed.
End P.
