(** Invariants of all reachable worlds, and proofs for C02, C04, C05, C18. *)
From Coq Require Import List ZArith Lia Bool String QArith.
From Verif Require Import Py Model_Base Spec_Base Proofs_Base_View Proofs_Base_Family.
Import ListNotations.
Local Open Scope nat_scope.
Local Notation length := List.length.

Lemma In_upd {A} (l : list A) i v x : In x (upd l i v) -> In x l \/ x = v.
Proof.
  revert i; induction l; intros [|i]; simpl; auto.
  - intros [->|H]; auto.
  - intros [->|H]; auto. apply IHl in H as [|]; auto.
Qed.

Section P.
Context {V : Type}.
Implicit Types (w : world V).

(** ** Well-formed references *)
Definition opt_lt (n : nat) (o : option nat) : Prop :=
  match o with Some l => l < n | None => True end.
Definition oper_wf (n : nat) (o : oper) : Prop :=
  opt_lt n (o_modes o) /\ opt_lt n (o_eigs o).
Definition inst_wf w (s : inst) : Prop :=
  in_op s < length (opers w) /\ opt_lt (next w) (in_b s) /\
  opt_lt (length (proxies w)) (in_px s) /\
  opt_lt (length (dicts w)) (in_ot s) /\ opt_lt (length (dicts w)) (in_dt s) /\
  (in_b s = None -> in_px s = None).
Definition px_wf w (px : proxy) : Prop :=
  forall k, px_orig px k < next w /\ px_prox px k < next w /\
    length (hget w (px_orig px k)) = length (px_mask px) /\
    length (hget w (px_prox px k)) = count (px_mask px).

Record wf w : Prop := {
  wf_opers : forall o, In o (opers w) -> oper_wf (next w) o;
  wf_insts : forall s, In s (insts w) -> inst_wf w s;
  wf_px : forall p, In p (proxies w) -> px_wf w p;
  wf_hd : forall l, In l (handles w) -> l < next w }.

Definition grow w w' : Prop :=
  next w <= next w' /\ (forall l, l < next w -> length (hget w' l) = length (hget w l)) /\
  length (opers w) <= length (opers w') /\ length (proxies w) <= length (proxies w') /\
  length (dicts w) <= length (dicts w').

Lemma grow_refl w : grow w w.
Proof. repeat split; auto. Qed.
Lemma grow_trans a b c : grow a b -> grow b c -> grow a c.
Proof.
  intros (A1 & A2 & A3 & A4 & A5) (B1 & B2 & B3 & B4 & B5).
  repeat split; try lia. intros l H. rewrite B2 by lia. auto.
Qed.

Lemma opt_lt_mono n n' o : n <= n' -> opt_lt n o -> opt_lt n' o.
Proof. destruct o; simpl; lia. Qed.
Lemma inst_wf_mono w w' s : grow w w' -> inst_wf w s -> inst_wf w' s.
Proof.
  intros (A1 & A2 & A3 & A4 & A5) (B1 & B2 & B3 & B4 & B5 & B6).
  repeat split; auto; try lia; eapply opt_lt_mono; eauto.
Qed.
Lemma px_wf_mono w w' px : grow w w' -> px_wf w px -> px_wf w' px.
Proof.
  intros (A1 & A2 & _) B k. destruct (B k) as (B1 & B2 & B3 & B4).
  repeat split; try lia; rewrite A2; auto.
Qed.
Lemma oper_wf_mono n n' o : n <= n' -> oper_wf n o -> oper_wf n' o.
Proof. intros H [A B]; split; eapply opt_lt_mono; eauto. Qed.

Lemma wf_ext w w' : wf w -> grow w w' ->
  (forall o, In o (opers w') -> In o (opers w) \/ oper_wf (next w') o) ->
  (forall s, In s (insts w') -> In s (insts w) \/ inst_wf w' s) ->
  (forall p, In p (proxies w') -> In p (proxies w) \/ px_wf w' p) ->
  (forall l, In l (handles w') -> In l (handles w) \/ l < next w') -> wf w'.
Proof.
  intros [W1 W2 W3 W4] G O I P H. pose proof G as (G1 & _). constructor.
  - intros o Ho. destruct (O o Ho) as [Q|Q]; auto. eapply oper_wf_mono; eauto.
  - intros s Hs. destruct (I s Hs) as [Q|Q]; auto. eapply inst_wf_mono; eauto.
  - intros p Hp. destruct (P p Hp) as [Q|Q]; auto. eapply px_wf_mono; eauto.
  - intros l Hl. destruct (H l Hl) as [Q|Q]; auto. apply W4 in Q. lia.
Qed.

(** ** Three fresh arrays *)
Definition al3 w (a b c : list V) : world V := halloc (halloc (halloc w a) b) c.
Lemma next_al3 w a b c : next (al3 w a b c) = 3 + next w.
Proof. unfold al3. rewrite !next_halloc. reflexivity. Qed.
Lemma hget_al3_lt w a b c l : l < next w -> hget (al3 w a b c) l = hget w l.
Proof. intros H. unfold al3. rewrite !hget_halloc_lt; rewrite ?next_halloc; auto; lia. Qed.
Lemma hget_al3_0 w a b c : hget (al3 w a b c) (next w) = a.
Proof.
  unfold al3. rewrite !hget_halloc_lt by (rewrite ?next_halloc; lia). apply hget_halloc_eq.
Qed.
Lemma hget_al3_1 w a b c : hget (al3 w a b c) (S (next w)) = b.
Proof.
  unfold al3. rewrite hget_halloc_lt by (rewrite ?next_halloc; lia).
  rewrite <- (next_halloc w a). apply hget_halloc_eq.
Qed.
Lemma hget_al3_2 w a b c : hget (al3 w a b c) (S (S (next w))) = c.
Proof.
  unfold al3. rewrite <- (next_halloc w a), <- (next_halloc (halloc w a) b).
  apply hget_halloc_eq.
Qed.

(** ** allocate, explicitly *)
Definition fresh_px w (m e b : loc) (mask : list bool) : proxy :=
  mkProxy m e b mask (next w) (S (next w)) (S (S (next w))).

Definition alloc_world w i s m e b : world V :=
  set_inst (add_proxy (al3 w (hget w m) (hget w e) (hget w b))
              (fresh_px w m e b (repeat true (length (hget w e)))))
    i (with_px s (Some (length (proxies w)))).

Definition alloc_ready w s (m e b : loc) : Prop :=
  in_b s = Some b /\ o_modes (oper_of w s) = Some m /\ o_eigs (oper_of w s) = Some e /\
  length (hget w m) = length (hget w e) /\ length (hget w b) = length (hget w e).

(** what _allocate does, without touching the world *)
Definition alloc_check w s : result unit :=
  match in_b s with
  | None => Ok tt
  | Some b =>
      match o_modes (oper_of w s), o_eigs (oper_of w s) with
      | Some m, Some e =>
          if (length (hget w e) =? length (hget w m)) && (length (hget w e) =? length (hget w b))
          then Ok tt else Err IndexError
      | _, _ => Err ValueError
      end
  end.

Lemma allocate_spec w i s :
  match alloc_check w s with
  | Err x => allocate w i s = (w, Err x)
  | Ok _ =>
      match in_b s with
      | None => allocate w i s = (w, Ok s)
      | Some b => exists m e, alloc_ready w s m e b /\
          allocate w i s = (alloc_world w i s m e b, Ok (with_px s (Some (length (proxies w)))))
      end
  end.
Proof.
  unfold alloc_check, allocate. destruct (in_b s) as [b|] eqn:B; auto.
  destruct (o_modes (oper_of w s)) as [m|] eqn:M; auto.
  destruct (o_eigs (oper_of w s)) as [e|] eqn:E; auto.
  unfold proxy_init, np_mask_get. rewrite !repeat_length, !Nat.eqb_refl.
  destruct (Nat.eqb_spec (length (hget w e)) (length (hget w m))) as [L1|]; simpl; auto.
  destruct (Nat.eqb_spec (length (hget w e)) (length (hget w b))) as [L2|]; simpl; auto.
  exists m, e. split; [repeat split; auto|].
  unfold alloc_world, al3, fresh_px. rewrite !next_halloc.
  rewrite L1 at 1. rewrite L2 at 2. rewrite !sel_repeat_true. reflexivity.
Qed.

Lemma oper_of_In w s : in_op s < length (opers w) -> In (oper_of w s) (opers w).
Proof. intros H. unfold oper_of. now apply nth_In. Qed.

Lemma alloc_ready_lt w s m e b : wf w -> inst_wf w s -> alloc_ready w s m e b ->
  m < next w /\ e < next w /\ b < next w.
Proof.
  intros W (I1 & I2 & _) (A & B & C & _).
  rewrite A in I2. pose proof (wf_opers _ W _ (oper_of_In _ _ I1)) as [O1 O2].
  rewrite B in O1. rewrite C in O2. auto.
Qed.

Lemma fresh_px_wf w m e b mask A B C :
  m < next w -> e < next w -> b < next w ->
  length (hget w m) = length mask -> length (hget w e) = length mask ->
  length (hget w b) = length mask ->
  length A = count mask -> length B = count mask -> length C = count mask ->
  px_wf (al3 w A B C) (fresh_px w m e b mask).
Proof.
  intros. intros k. rewrite next_al3.
  destruct k; cbn [fresh_px px_orig px_prox orig3 px_om px_oe px_oa px_m px_e px_a px_mask];
    rewrite ?hget_al3_0, ?hget_al3_1, ?hget_al3_2; repeat split;
    try lia; rewrite hget_al3_lt by auto; auto.
Qed.

Lemma grow_al3 w a b c : grow w (al3 w a b c).
Proof.
  repeat split; auto; try (rewrite next_al3; lia). intros. now rewrite hget_al3_lt.
Qed.

Lemma wf_alloc w i s m e b : wf w -> inst_wf w s -> alloc_ready w s m e b ->
  wf (alloc_world w i s m e b).
Proof.
  intros W I A. destruct (alloc_ready_lt _ _ _ _ _ W I A) as (Lm & Le & Lb).
  pose proof A as (_ & _ & _ & E1 & E2).
  assert (G : grow w (alloc_world w i s m e b)).
  { unfold alloc_world. pose proof (grow_al3 w (hget w m) (hget w e) (hget w b)) as (G1 & G2 & G3 & G4 & G5).
    repeat split; auto. simpl. rewrite app_length. simpl in *. lia. }
  apply (wf_ext w); auto.
  - intros s' H. apply In_upd in H as [H| ->]; auto. right.
    pose proof (inst_wf_mono _ _ _ G I) as (I1 & I2 & I3 & I4 & I5 & I6).
    repeat split; auto; [simpl; rewrite app_length; simpl; lia|].
    destruct A as (A1 & _). simpl. congruence.
  - intros p H. apply in_app_or in H as [H|[<-|[]]]; auto. right.
    apply (fresh_px_wf w m e b); rewrite ?repeat_length, ?count_repeat_true; auto.
Qed.

(** ** change_mask, explicitly *)
Definition flush w (px : proxy) : world V :=
  hset (hset (hset w (px_om px) (unsel (px_mask px) (hget w (px_om px)) (hget w (px_m px))))
             (px_oe px) (unsel (px_mask px) (hget w (px_oe px)) (hget w (px_e px))))
       (px_oa px) (unsel (px_mask px) (hget w (px_oa px)) (hget w (px_a px))).

Definition mask_world w p px value : world V :=
  let w1 := flush w px in
  set_proxy (al3 w1 (sel value (hget w1 (px_om px))) (sel value (hget w1 (px_oe px)))
                    (sel value (hget w1 (px_oa px)))) p
    (fresh_px w1 (px_om px) (px_oe px) (px_oa px) value).

Lemma length_hset w l x l' : length x = length (hget w l) ->
  length (hget (hset w l x) l') = length (hget w l').
Proof.
  intros H. destruct (Nat.eq_dec l l') as [<-|N].
  - destruct (Nat.lt_ge_cases l (next w)).
    + rewrite hget_hset_eq; auto.
    + unfold hget, hset; simpl. unfold next in *.
      rewrite !nth_overflow; auto. now rewrite length_upd.
  - rewrite hget_hset_neq; auto.
Qed.

Lemma length_flush w px l : length (hget (flush w px) l) = length (hget w l).
Proof.
  unfold flush. rewrite length_hset.
  - rewrite length_hset; [rewrite length_hset; auto|]; rewrite ?length_unsel; auto.
    now rewrite length_hset; rewrite ?length_unsel.
  - rewrite length_unsel. rewrite length_hset; rewrite ?length_unsel;
      rewrite length_hset; rewrite ?length_unsel; auto.
Qed.
Lemma next_flush w px : next (flush w px) = next w.
Proof. unfold flush. now rewrite !next_hset. Qed.

Lemma change_mask_ok w p px value :
  proxy_at w p = Some px -> px_wf w px -> length value = length (px_mask px) ->
  change_mask w p value = (mask_world w p px value, Ok tt).
Proof.
  intros P W L. unfold change_mask. rewrite P.
  destruct (W KModes) as (_ & _ & A1 & A2), (W KEigs) as (_ & _ & B1 & B2),
    (W KAmps) as (_ & _ & C1 & C2).
  cbn [px_orig px_prox orig3] in A1, A2, B1, B2, C1, C2.
  rewrite !np_mask_set_ok by auto. cbn [bind].
  fold (flush w px).
  rewrite !np_mask_get_ok by (rewrite length_flush; congruence). cbn [bind].
  unfold mask_world, al3, fresh_px. rewrite !next_halloc. reflexivity.
Qed.

Lemma wf_mask w p px value : wf w -> proxy_at w p = Some px ->
  length value = length (px_mask px) -> wf (mask_world w p px value).
Proof.
  intros W P L. assert (PW : px_wf w px) by (apply (wf_px _ W); eapply nth_error_In; eauto).
  unfold mask_world. set (w1 := flush w px).
  assert (G1 : grow w w1).
  { repeat split; auto; [unfold w1; rewrite next_flush; auto|].
    intros; apply length_flush. }
  assert (W1 : wf w1).
  { apply (wf_ext w); auto. }
  assert (PW1 : px_wf w1 px) by (eapply px_wf_mono; eauto).
  destruct (PW1 KModes) as (Am & _ & A1 & A2), (PW1 KEigs) as (Bm & _ & B1 & B2),
    (PW1 KAmps) as (Cm & _ & C1 & C2).
  cbn [px_orig px_prox orig3] in *.
  match goal with |- wf (set_proxy ?X _ _) => set (w2 := X) end.
  assert (G : grow w1 (set_proxy w2 p (fresh_px w1 (px_om px) (px_oe px) (px_oa px) value))).
  { unfold w2. pose proof (grow_al3 w1 (sel value (hget w1 (px_om px))) (sel value (hget w1 (px_oe px))) (sel value (hget w1 (px_oa px)))) as (Q1 & Q2 & Q3 & Q4 & Q5).
    repeat split; auto. simpl. rewrite length_upd. simpl in *; lia. }
  apply (wf_ext w1); auto.
  intros q H. apply In_upd in H as [H| ->]; auto. right.
  apply (fresh_px_wf w1); try congruence; apply length_sel; congruence.
Qed.

(** ** ensure *)
Lemma ensure_spec w i s :
  match in_px s with
  | Some _ => ensure w i s = (w, Ok s)
  | None =>
    match alloc_check w s with
    | Err x => ensure w i s = (w, Err x)
    | Ok _ =>
      match in_b s with
      | None => ensure w i s = (w, Ok s)
      | Some b => exists m e, alloc_ready w s m e b /\
          ensure w i s = (alloc_world w i s m e b, Ok (with_px s (Some (length (proxies w)))))
      end
    end
  end.
Proof.
  unfold ensure. destruct (in_px s); auto. apply allocate_spec.
Qed.

(** the array a property shows, without allocating *)
Definition peek_arr w s k : out V :=
  if fitted w s then
    match in_px s with
    | Some p => match proxy_at w p with
                | Some px => OArr (hget w (px_prox px k))
                | None => ORaise AttributeError end
    | None =>
        match alloc_check w s with
        | Err x => ORaise x
        | Ok _ =>
            match k with
            | KModes => match o_modes (oper_of w s) with
                        | Some l => OArr (hget w l) | None => ORaise ValueError end
            | KEigs => match o_eigs (oper_of w s) with
                       | Some l => OArr (hget w l) | None => ORaise ValueError end
            | KAmps => match in_b s with
                       | Some l => OArr (hget w l) | None => ORaise AttributeError end
            end
        end
    end
  else ONone.

Definition peek_mask w s : result (list bool) :=
  if fitted w s then
    match in_px s with
    | Some p => match proxy_at w p with
                | Some px => Ok (px_mask px)
                | None => Err AttributeError end
    | None =>
        match alloc_check w s with
        | Err x => Err x
        | Ok _ =>
            match in_b s with
            | Some _ => match o_eigs (oper_of w s) with
                        | Some e => Ok (repeat true (length (hget w e)))
                        | None => Err ValueError end
            | None => Err AttributeError
            end
        end
    end
  else Err RuntimeError.

Definition mask_out (r : result (list bool)) : out V :=
  match r with Ok m => OMask m | Err x => ORaise x end.

(** the world after any read that goes through [ensure] *)
Definition touch w i s : world V :=
  if fitted w s then fst (ensure w i s) else w.

Lemma step_get_peek w i s k :
  nth_error (insts w) i = Some s ->
  snd (step w (Get i k)) = peek_arr w s k /\
  (fst (step w (Get i k)) = touch w i s \/
   exists l, fst (step w (Get i k)) = add_handle (touch w i s) l).
Proof.
  intros I. simpl. unfold with_inst. rewrite I. unfold get_arr, peek_arr, touch.
  destruct (fitted w s) eqn:F; auto.
  pose proof (ensure_spec w i s) as E. destruct (in_px s) as [p|] eqn:P.
  - rewrite E, P. destruct (proxy_at w p); auto. simpl. split; eauto.
  - destruct (alloc_check w s) eqn:C; [|rewrite E; auto].
    destruct (in_b s) as [b|] eqn:B.
    + destruct E as (m & e & A & ->). simpl.
      pose proof A as (_ & A2 & A3 & _). rewrite A2, A3.
      unfold proxy_at; simpl. rewrite nth_error_app2, Nat.sub_diag; auto. simpl.
      split; eauto. 
      change (hget (alloc_world w i s m e b)) with (hget (al3 w (hget w m) (hget w e) (hget w b))).
      destruct k; simpl; now rewrite ?hget_al3_0, ?hget_al3_1, ?hget_al3_2.
    + rewrite E, P. destruct k; simpl; auto.
      * destruct (o_modes (oper_of w s)); simpl; eauto.
      * destruct (o_eigs (oper_of w s)); simpl; eauto.
Qed.

Lemma get_mask_peek w i s :
  nth_error (insts w) i = Some s ->
  get_mask w i s = (touch w i s, peek_mask w s).
Proof.
  intros I. unfold get_mask, peek_mask, touch.
  destruct (fitted w s) eqn:F; auto.
  pose proof (ensure_spec w i s) as E. destruct (in_px s) as [p|] eqn:P.
  - rewrite E, P. destruct (proxy_at w p); auto.
  - destruct (alloc_check w s) eqn:C; [|rewrite E; auto].
    destruct (in_b s) as [b|] eqn:B.
    + destruct E as (m & e & A & ->). simpl.
      pose proof A as (_ & A2 & A3 & _). rewrite A3.
      unfold proxy_at; simpl. rewrite nth_error_app2, Nat.sub_diag; auto.
    + rewrite E, P. auto.
Qed.

Lemma nth_error_wf w i s : wf w -> nth_error (insts w) i = Some s -> inst_wf w s.
Proof. intros W I. apply (wf_insts _ W). eapply nth_error_In; eauto. Qed.

Lemma touch_cases w i s : nth_error (insts w) i = Some s ->
  (touch w i s = w) \/
  (in_px s = None /\ fitted w s = true /\ exists m e b, alloc_ready w s m e b /\ touch w i s = alloc_world w i s m e b).
Proof.
  intros I. unfold touch. destruct (fitted w s); auto.
  pose proof (ensure_spec w i s) as E. destruct (in_px s) as [p|]; [rewrite E; auto|].
  destruct (alloc_check w s); [|rewrite E; auto].
  destruct (in_b s) as [b|]; [|rewrite E; auto].
  right. destruct E as (m & e & A & ->). split; eauto. split; auto. eauto 6.
Qed.

Lemma wf_touch w i s : wf w -> nth_error (insts w) i = Some s -> wf (touch w i s).
Proof.
  intros W I. destruct (touch_cases w i s I) as [->|(_ & _ & m & e & b & A & ->)]; auto.
  apply wf_alloc; auto. eapply nth_error_wf; eauto.
Qed.

Lemma peek_mask_length w s m : wf w -> inst_wf w s -> peek_mask w s = Ok m ->
  in_px s = None -> exists e, o_eigs (oper_of w s) = Some e /\ m = repeat true (length (hget w e)).
Proof.
  intros W I P N. unfold peek_mask in P. destruct (fitted w s); [|discriminate].
  rewrite N in P. destruct (alloc_check w s); [|discriminate].
  destruct (in_b s); [|discriminate]. destruct (o_eigs (oper_of w s)); [|discriminate].
  injection P as <-. eauto.
Qed.

(** ** set_mask, explicitly *)
Lemma touch_proxy w i s m : wf w -> nth_error (insts w) i = Some s -> peek_mask w s = Ok m ->
  exists s1 p px, nth_error (insts (touch w i s)) i = Some s1 /\ in_px s1 = Some p /\
    proxy_at (touch w i s) p = Some px /\ px_mask px = m.
Proof.
  intros W I P. unfold peek_mask, touch in *. destruct (fitted w s); [|discriminate].
  pose proof (ensure_spec w i s) as E. destruct (in_px s) as [p|] eqn:Px.
  - rewrite E. simpl. destruct (proxy_at w p) as [px|] eqn:Q; [|discriminate].
    injection P as <-. eauto 7.
  - destruct (alloc_check w s); [|discriminate].
    destruct (in_b s) as [b|]; [|discriminate].
    destruct E as (m' & e & A & ->). simpl.
    pose proof A as (_ & _ & A3 & _). rewrite A3 in P. injection P as <-.
    eexists _, _, _. split; [apply nth_error_upd_eq, nth_error_Some; congruence|].
    split; [reflexivity|]. unfold proxy_at; simpl. rewrite nth_error_app2, Nat.sub_diag; auto.
    simpl. auto.
Qed.

Lemma set_mask_spec w i s v : wf w -> maskval_ok v -> nth_error (insts w) i = Some s ->
  if fitted w s && mv_bool v then
    match peek_mask w s with
    | Err x => set_mask w i s v = (touch w i s, Err x)
    | Ok m =>
        if list_eq_dec Nat.eq_dec (mv_shape v) [length m] then
          exists s1 p px, nth_error (insts (touch w i s)) i = Some s1 /\ in_px s1 = Some p /\
            proxy_at (touch w i s) p = Some px /\ px_mask px = m /\
            set_mask w i s v = (mask_world (touch w i s) p px (mv_data v), Ok tt)
        else set_mask w i s v = (touch w i s, Err ValueError)
    end
  else set_mask w i s v = (w, Err RuntimeError).
Proof.
  intros W Mv I. unfold set_mask. destruct (fitted w s) eqn:F; simpl; auto.
  destruct (mv_bool v); simpl; auto.
  rewrite (get_mask_peek w i s I). destruct (peek_mask w s) as [m|x] eqn:P; auto.
  destruct (list_eq_dec Nat.eq_dec (mv_shape v) [length m]) as [Sh|]; auto.
  destruct (touch_proxy w i s m W I P) as (s1 & p & px & I1 & P1 & Q1 & M1).
  exists s1, p, px. rewrite I1, P1. repeat split; auto.
  pose proof (wf_touch w i s W I) as W1.
  rewrite (change_mask_ok _ _ px); auto.
  - apply (wf_px _ W1). eapply nth_error_In; eauto.
  - unfold maskval_ok in Mv. rewrite Sh in Mv. simpl in Mv. rewrite M1. lia.
Qed.

Lemma length_list_eq v m (w : world V) : maskval_ok v -> mv_shape v = [length m] -> length (mv_data v) = length (m : list bool).
Proof. intros Mv Sh. unfold maskval_ok in Mv. rewrite Sh in Mv. simpl in Mv. lia. Qed.

Lemma wf_set_mask w i s v : wf w -> maskval_ok v -> nth_error (insts w) i = Some s ->
  wf (fst (set_mask w i s v)).
Proof.
  intros W Mv I. pose proof (set_mask_spec w i s v W Mv I) as S.
  destruct (fitted w s && mv_bool v); [|rewrite S; auto].
  destruct (peek_mask w s) as [m|]; [|rewrite S; now apply wf_touch].
  destruct (list_eq_dec Nat.eq_dec (mv_shape v) [length m]) as [Sh|]; [|rewrite S; now apply wf_touch].
  destruct S as (s1 & p & px & I1 & P1 & Q1 & M1 & ->). simpl.
  apply wf_mask; auto using wf_touch. rewrite M1. now apply length_list_eq.
Qed.

(** ** getitem *)
Lemma wf_add_inst w s : wf w -> inst_wf w s -> wf (add_inst w s).
Proof.
  intros W I. apply (wf_ext w); auto.
  - repeat split; auto.
  - intros s' H. apply in_app_or in H as [H|[<-|[]]]; auto.
Qed.

(** the explicit form of a successful getitem *)
Lemma getitem_spec w i s k : wf w -> nth_error (insts w) i = Some s ->
  match (match check_key k with Err x => Err x | Ok _ =>
           match peek_mask w s with Err x => Err x | Ok m => key_mask (length m) k end end) with
  | Err x => getitem w i s k = (w, Err x) \/ getitem w i s k = (touch w i s, Err x)
  | Ok mask =>
      let w1 := touch w i s in
      exists s1, nth_error (insts w1) i = Some s1 /\
      let j := length (insts w1) in
      let w2 := add_inst w1 s1 in
      (exists x, getitem w i s k = (w1, Err x)) \/
      exists m e b, alloc_ready w1 s1 m e b /\
        let w3 := alloc_world w2 j s1 m e b in
        let px := fresh_px w2 m e b (repeat true (length (hget w2 e))) in
        length mask = length (px_mask px) /\
        proxy_at w3 (length (proxies w1)) = Some px /\
        getitem w i s k = (mask_world w3 (length (proxies w1)) px mask, Ok j)
  end.
Proof.
  intros W I. unfold getitem. destruct (check_key k) as [u|x]; auto.
  rewrite (get_mask_peek w i s I).
  destruct (peek_mask w s) as [m|] eqn:P; auto.
  destruct (key_mask (length m) k) as [mask|] eqn:K; auto.
  apply key_mask_length in K.
  destruct (touch_proxy w i s m W I P) as (s1 & p & px & I1 & P1 & Q1 & M1).
  cbv zeta. set (w1 := touch w i s) in *. rewrite I1. exists s1. split; auto.
  set (j := length (insts w1)). set (w2 := add_inst w1 s1).
  pose proof (wf_touch w i s W I) as W1. fold w1 in W1.
  assert (W2 : wf w2). { apply wf_add_inst; auto. eapply nth_error_wf; eauto. }
  pose proof (allocate_spec w2 j s1) as A. destruct (alloc_check w2 s1); [|rewrite A; eauto].
  destruct (in_b s1) as [b|] eqn:B.
  - destruct A as (m' & e & A & ->). set (s3 := with_px s1 _). set (w3 := alloc_world w2 j s1 m' e b).
    assert (I2 : nth_error (insts w2) j = Some s1).
    { unfold w2, j; simpl. now rewrite nth_error_app2, Nat.sub_diag. }
    assert (I3 : nth_error (insts w3) j = Some s3).
    { change (nth_error (upd (insts w2) j s3) j = Some s3).
      apply nth_error_upd_eq, nth_error_Some. congruence. }
    assert (W3 : wf w3). { apply wf_alloc; auto. eapply nth_error_wf; eauto. }
    assert (Pa : proxy_at w3 (length (proxies w2)) = Some (fresh_px w2 m' e b (repeat true (length (hget w2 e))))).
    { unfold proxy_at, w3, alloc_world; simpl. now rewrite nth_error_app2, Nat.sub_diag. }
    assert (Fit3 : fitted w3 s3 = true).
    { unfold fitted. change (oper_of w3 s3) with (oper_of w2 s1).
      destruct A as (_ & A2 & _). now rewrite A2. }
    assert (Pm : peek_mask w3 s3 = Ok (repeat true (length (hget w2 e)))).
    { unfold peek_mask. rewrite Fit3. cbn [s3 in_px with_px]. rewrite Pa. reflexivity. }
    assert (Mv : maskval_ok (mkMaskval true [length mask] mask)) by (unfold maskval_ok; simpl; lia).
    assert (T3 : touch w3 j s3 = w3).
    { unfold touch. rewrite Fit3. reflexivity. }
    pose proof (set_mask_spec w3 j s3 _ W3 Mv I3) as S.
    rewrite Fit3, Pm in S. cbn [mv_bool mv_shape mv_data andb] in S. rewrite T3 in S.
    destruct (list_eq_dec Nat.eq_dec [length mask] _) as [Sh|Sh].
    + destruct S as (s4 & p4 & px4 & I4 & P4 & Q4 & M4 & ->).
      right. exists m', e, b. split; [exact A|].
      injection Sh as Sh. rewrite I3 in I4. injection I4 as <-. injection P4 as <-.
      change (length (proxies w2)) with (length (proxies w1)) in *.
      rewrite Pa in Q4. injection Q4 as <-.
      split; [exact Sh|]. split; auto.
    + rewrite S. eauto.
  - exfalso. pose proof (nth_error_wf _ _ _ W1 I1) as (_ & _ & _ & _ & _ & Q).
    specialize (Q B). congruence.
Qed.

(** ** Well-formedness is preserved by every operation *)
Lemma wf_set_inst w i s : wf w -> inst_wf w s -> wf (set_inst w i s).
Proof.
  intros W I. apply (wf_ext w); auto.
  - repeat split; auto.
  - intros s' H. apply In_upd in H as [H| ->]; auto.
Qed.
Lemma wf_halloc w a : wf w -> wf (halloc w a).
Proof.
  intros W. apply (wf_ext w); auto. repeat split; auto.
  - rewrite next_halloc; lia.
  - intros. now rewrite hget_halloc_lt.
Qed.
Lemma wf_set_oper w o x : wf w -> oper_wf (next w) x -> wf (set_oper w o x).
Proof.
  intros W I. apply (wf_ext w); auto.
  - repeat split; auto. simpl. now rewrite length_upd.
  - intros s' H. apply In_upd in H as [H| ->]; auto.
Qed.
Lemma wf_add_dict w d : wf w -> wf (add_dict w d).
Proof.
  intros W. apply (wf_ext w); auto. repeat split; auto. simpl. rewrite app_length; lia.
Qed.
Lemma wf_set_dict w d x : wf w -> wf (set_dict w d x).
Proof.
  intros W. apply (wf_ext w); auto. repeat split; auto. simpl. now rewrite length_upd.
Qed.
Lemma wf_hset w l a : wf w -> length a = length (hget w l) -> wf (hset w l a).
Proof.
  intros W L. apply (wf_ext w); auto. repeat split; auto.
  - now rewrite next_hset.
  - intros. now apply length_hset.
Qed.
Lemma wf_add_handle w l : wf w -> l < next w -> wf (add_handle w l).
Proof.
  intros W L. apply (wf_ext w); auto.
  - repeat split; auto.
  - intros l' H. apply in_app_or in H as [H|[<-|[]]]; auto.
Qed.

Lemma inst_wf_reset w s : inst_wf w s -> inst_wf w (reset s).
Proof. intros (A & B & C & D & E & F). repeat split; simpl; auto. Qed.

Lemma wf_fit_eigs w s es : wf w -> inst_wf w s -> wf (fit_eigs w s es).
Proof.
  intros W I. unfold fit_eigs. apply wf_set_oper; [now apply wf_halloc|].
  pose proof I as (I1 & _). pose proof (wf_opers _ W _ (oper_of_In _ _ I1)) as [O1 O2].
  split; simpl; rewrite next_halloc; [eapply opt_lt_mono; [|exact O1]; lia|lia].
Qed.
Lemma wf_fit_modes w s ms : wf w -> inst_wf w s -> wf (fit_modes w s ms).
Proof.
  intros W I. unfold fit_modes. apply wf_set_oper; [now apply wf_halloc|].
  pose proof I as (I1 & _). pose proof (wf_opers _ W _ (oper_of_In _ _ I1)) as [O1 O2].
  split; simpl; rewrite next_halloc; [lia|eapply opt_lt_mono; [|exact O2]; lia].
Qed.
Lemma inst_wf_fit_eigs w s s' es : inst_wf w s' -> inst_wf (fit_eigs w s es) s'.
Proof.
  intros (A & B & C & D & E & F). unfold fit_eigs. repeat split; simpl; auto.
  - now rewrite length_upd.
  - change (opt_lt (next (halloc w es)) (in_b s')). rewrite next_halloc. eapply opt_lt_mono; [|exact B]; lia.
Qed.
Lemma inst_wf_fit_modes w s s' es : inst_wf w s' -> inst_wf (fit_modes w s es) s'.
Proof.
  intros (A & B & C & D & E & F). unfold fit_modes. repeat split; simpl; auto.
  - now rewrite length_upd.
  - change (opt_lt (next (halloc w es)) (in_b s')). rewrite next_halloc. eapply opt_lt_mono; [|exact B]; lia.
Qed.

Lemma wf_init_time w i s n : wf w -> inst_wf w s ->
  wf (fst (init_time w i s n)) /\ inst_wf (fst (init_time w i s n)) (snd (init_time w i s n)).
Proof.
  intros W I. pose proof I as (A & B & C & D & E & F). unfold init_time. cbn [fst snd].
  match goal with |- wf (set_inst ?X _ ?S) /\ _ => set (w1 := X); set (s1 := S) end.
  assert (I1 : inst_wf w1 s1).
  { repeat split; simpl; auto; rewrite !app_length; simpl; lia. }
  split; auto. apply wf_set_inst; auto. now repeat apply wf_add_dict.
Qed.

Lemma wf_fit w i s f : wf w -> nth_error (insts w) i = Some s -> wf (fst (fit w i s f)).
Proof.
  intros W I. pose proof (nth_error_wf _ _ _ W I) as Q.
  apply inst_wf_reset in Q.
  assert (Q1 : forall n, inst_wf w (with_snap (reset s) n)) by (intros n; exact Q).
  unfold fit. destruct f; cbn [fst].
  - set (s1 := with_snap (reset s) n).
    assert (Wm : wf (fit_modes (fit_eigs (set_inst w i s1) s1 es) s1 ms)).
    { apply wf_fit_modes; [apply wf_fit_eigs; [apply wf_set_inst; auto|]|apply inst_wf_fit_eigs]; apply Q1. }
    assert (Im : inst_wf (fit_modes (fit_eigs (set_inst w i s1) s1 es) s1 ms) s1).
    { apply inst_wf_fit_modes, inst_wf_fit_eigs, Q1. }
    destruct (wf_init_time _ i s1 n Wm Im) as [Wt It].
    destruct (init_time _ i s1 n) as [w2 s2] eqn:E. cbn [fst snd] in *.
    assert (Pn : in_px s2 = None) by (injection E as _ <-; reflexivity).
    apply wf_set_inst; [now apply wf_halloc|].
    destruct It as (A & B & C & D & F & G). repeat split; simpl; auto.
    rewrite next_halloc. lia.
  - apply wf_set_inst; auto.
  - apply wf_set_inst; auto; apply Q1.
  - apply wf_fit_eigs; [apply wf_set_inst; auto|]; apply Q1.
  - set (s1 := with_snap (reset s) n).
    assert (Wm : wf (fit_modes (fit_eigs (set_inst w i s1) s1 es) s1 ms)).
    { apply wf_fit_modes; [apply wf_fit_eigs; [apply wf_set_inst; auto|]|apply inst_wf_fit_eigs]; apply Q1. }
    assert (Im : inst_wf (fit_modes (fit_eigs (set_inst w i s1) s1 es) s1 ms) s1).
    { apply inst_wf_fit_modes, inst_wf_fit_eigs, Q1. }
    destruct (wf_init_time _ i s1 n Wm Im) as [Wt It].
    destruct (init_time _ i s1 n) as [w2 s2]. exact Wt.
Qed.

Lemma wf_getitem w i s k : wf w -> nth_error (insts w) i = Some s -> wf (fst (getitem w i s k)).
Proof.
  intros W I. pose proof (getitem_spec w i s k W I) as G.
  destruct (match check_key k with Ok _ => _ | Err x => _ end) as [mask|x].
  - destruct G as (s1 & I1 & [(x & ->)|(m & e & b & A & L & P & ->)]); [now apply wf_touch|].
    simpl. apply wf_mask; auto. apply wf_alloc; [|exact (nth_error_wf _ _ _ (wf_touch _ _ _ W I) I1)|exact A].
    apply wf_add_inst; [now apply wf_touch|]. exact (nth_error_wf _ _ _ (wf_touch _ _ _ W I) I1).
  - destruct G as [-> | ->]; auto. now apply wf_touch.
Qed.

Lemma get_loc_lt w i s k l w1 : wf w -> nth_error (insts w) i = Some s ->
  get_arr w i s k = (w1, Ok (Some l)) -> l < next w1.
Proof.
  intros W I G. pose proof (nth_error_wf _ _ _ W I) as Iw.
  unfold get_arr in G. destruct (fitted w s) eqn:F; [|discriminate].
  assert (W1 : wf (fst (ensure w i s))).
  { pose proof (wf_touch w i s W I) as T. unfold touch in T. now rewrite F in T. }
  pose proof (ensure_spec w i s) as E.
  assert (forall s1, ensure w i s = (fst (ensure w i s), Ok s1) -> inst_wf (fst (ensure w i s)) s1) as IW.
  { intros s1 Q. destruct (in_px s); [rewrite E in *; congruence|].
    destruct (alloc_check w s); [|rewrite E in *; discriminate].
    destruct (in_b s) as [b|]; [|rewrite E in *; congruence].
    destruct E as (m & e & A & E). rewrite E in *. injection Q as <-.
    apply (nth_error_wf _ i); auto. simpl. apply nth_error_upd_eq, nth_error_Some; congruence. }
  destruct (ensure w i s) as [w2 [s1|x]]; [|discriminate]. cbn [fst] in *.
  specialize (IW s1 eq_refl).
  destruct (in_px s1) as [p|].
  - destruct (proxy_at w2 p) as [px|] eqn:P; [|discriminate]. injection G as <- <-.
    assert (PW : px_wf w2 px) by (apply (wf_px _ W1); eapply nth_error_In; eauto).
    apply (PW k).
  - pose proof IW as (I1 & _). pose proof (wf_opers _ W1 _ (oper_of_In _ _ I1)) as [O1 O2].
    destruct k; [destruct (o_modes (oper_of w2 s1)); [|discriminate]|
                 destruct (o_eigs (oper_of w2 s1)); [|discriminate]|discriminate];
      injection G as <- <-; auto.
Qed.

Lemma get_arr_world w i s k : nth_error (insts w) i = Some s -> fst (get_arr w i s k) = touch w i s.
Proof.
  intros I. unfold get_arr, touch. destruct (fitted w s); auto.
  destruct (ensure w i s) as [w1 [s1|x]]; auto. destruct (in_px s1); auto.
  - now destruct (proxy_at w1 n).
  - destruct k; auto; [destruct (o_modes _)|destruct (o_eigs _)]; auto.
Qed.

Lemma wf_step w o : wf w -> op_ok o -> wf (fst (step w o)).
Proof.
  intros W Ok. destruct o; simpl; unfold with_inst, of_unit;
    try (destruct (nth_error (insts w) i) as [s|] eqn:I; [|exact W]).
  - apply (wf_ext w); auto.
    + repeat split; auto. simpl. rewrite app_length; lia.
    + intros o H. apply in_app_or in H as [H|[<-|[]]]; auto. right. split; exact Logic.I.
    + intros s H. apply in_app_or in H as [H|[<-|[]]]; auto. right.
      repeat split; simpl; auto. rewrite app_length; simpl; lia.
  - now apply wf_fit.
  - pose proof (get_arr_world w i s k I) as T. pose proof (wf_touch w i s W I) as Wt.
    pose proof (get_loc_lt w i s k) as G.
    destruct (get_arr w i s k) as [w1 [[l|]|x]]; cbn [fst] in *; rewrite <- T in Wt.
    + apply wf_add_handle; [exact Wt|]. exact (G l w1 W I eq_refl).
    + exact Wt.
    + exact Wt.
  - destruct (nth_error (handles w) h) as [l|]; [|exact W].
    destruct (Nat.ltb_spec j (length (hget w l))); [|exact W].
    apply wf_hset; auto. apply length_upd.
  - rewrite (get_mask_peek w i s I). now apply wf_touch.
  - now apply wf_set_mask.
  - pose proof (wf_getitem w i s k W I) as G. destruct (getitem w i s k). exact G.
  - exact W.
  - unfold time_setitem. destruct (get_time w s a); auto.
    destruct (_ && _); auto. now apply wf_set_dict.
  - unfold time_update. destruct (get_time w s a); auto. now apply wf_set_dict.
  - unfold time_delitem. destruct (get_time w s a); auto. destruct (d_get _ _); auto. now apply wf_set_dict.
  - pose proof (nth_error_wf _ _ _ W I) as (A & B & C & D & E & F).
    unfold assign_time. destruct v as [D0|].
    + destruct (_ && _); auto. apply wf_set_inst; [now apply wf_add_dict|].
      repeat split; simpl; auto; [|rewrite app_length; simpl; lia].
      eapply opt_lt_mono; [|exact D]. rewrite app_length; simpl; lia.
    + apply wf_set_inst; auto. repeat split; simpl; auto.
  - exact W.
Qed.

Lemma wf_empty : wf (@empty_world V).
Proof. constructor; simpl; contradiction. Qed.

Lemma run_fst w o os : fst (run w (o :: os)) = fst (run (fst (step w o)) os).
Proof. simpl. destruct (step w o). simpl. now destruct (run w0 os). Qed.

Lemma wf_run os : forall w, wf w -> Forall op_ok os -> wf (fst (run w os)).
Proof.
  induction os as [|o os IH]; intros w W F; auto. inversion F; subst.
  rewrite run_fst. apply IH; auto. now apply wf_step.
Qed.

Lemma wf_reach os : Forall op_ok os -> wf (fst (run (@empty_world V) os)).
Proof. apply wf_run, wf_empty. Qed.

(** ** Observations *)
Definition time_out w s a : out V :=
  match get_time w s a with Ok d => ODict (d_items (dict_at w d)) | Err x => ORaise x end.

Lemma observe_peek w i s : nth_error (insts w) i = Some s ->
  observe w i = [OBool (fitted w s); peek_arr w s KModes; peek_arr w s KEigs; peek_arr w s KAmps;
                 mask_out (peek_mask w s); time_out w s Original; time_out w s Dmd].
Proof.
  intros I. unfold observe. cbn [map].
  rewrite !(proj1 (step_get_peek w i s _ I)). simpl. unfold with_inst. rewrite I.
  rewrite (get_mask_peek w i s I). reflexivity.
Qed.
Lemma observe_none w i : nth_error (insts w) i = None ->
  observe w i = repeat (ORaise NameError) 7.
Proof. intros I. unfold observe. simpl. unfold with_inst. rewrite I. reflexivity. Qed.

Definition same_arr w w' s : Prop :=
  oper_of w' s = oper_of w s /\
  match in_px s with
  | Some p => proxy_at w' p = proxy_at w p /\
      forall px k, proxy_at w p = Some px -> hget w' (px_prox px k) = hget w (px_prox px k)
  | None => (forall l, o_modes (oper_of w s) = Some l -> hget w' l = hget w l) /\
            (forall l, o_eigs (oper_of w s) = Some l -> hget w' l = hget w l) /\
            (forall l, in_b s = Some l -> hget w' l = hget w l)
  end.

Lemma same_arr_peek w w' s : same_arr w w' s ->
  fitted w' s = fitted w s /\ (forall k, peek_arr w' s k = peek_arr w s k) /\
  peek_mask w' s = peek_mask w s.
Proof.
  intros (O & H). unfold fitted, peek_arr, peek_mask, fitted, alloc_check. rewrite !O.
  split; auto. destruct (o_modes (oper_of w s)) as [m|] eqn:M; auto.
  destruct (in_px s) as [p|].
  - destruct H as (H1 & H2). rewrite !H1. destruct (proxy_at w p) as [px|]; auto.
    split; auto. intros k. now rewrite (H2 px k).
  - destruct H as (H1 & H2 & H3). rewrite !(H1 m) by auto.
    destruct (in_b s) as [b|].
    + rewrite !(H3 b) by auto. destruct (o_eigs (oper_of w s)) as [e|]; auto.
      rewrite !(H2 e) by auto. auto.
    + split; auto. intros []; auto. destruct (o_eigs (oper_of w s)) as [e|]; auto.
      rewrite !(H2 e); auto.
Qed.

Definition same_time w w' s : Prop :=
  forall a d, time_ref s a = Some d -> d_items (dict_at w' d) = d_items (dict_at w d).
Lemma same_time_out w w' s : same_time w w' s -> forall a, time_out w' s a = time_out w s a.
Proof.
  intros H a. unfold time_out, get_time. specialize (H a). destruct (time_ref s a); auto.
  now rewrite (H n).
Qed.

Lemma observe_same w w' i s : nth_error (insts w) i = Some s -> nth_error (insts w') i = Some s ->
  same_arr w w' s -> same_time w w' s -> observe w' i = observe w i.
Proof.
  intros I I' A T. rewrite (observe_peek _ _ _ I), (observe_peek _ _ _ I').
  destruct (same_arr_peek _ _ _ A) as (-> & P & ->). rewrite !P, !(same_time_out _ _ _ T). reflexivity.
Qed.

(** growing the heap without changing old cells *)
Lemma same_arr_grow w w' s : wf w -> inst_wf w s ->
  opers w' = opers w ->
  (forall p px, proxy_at w p = Some px -> proxy_at w' p = Some px) ->
  (forall l, l < next w -> hget w' l = hget w l) -> same_arr w w' s.
Proof.
  intros W (I1 & I2 & I3 & _) O P H. split; [unfold oper_of; now rewrite O|].
  pose proof (wf_opers _ W _ (oper_of_In _ _ I1)) as [O1 O2].
  destruct (in_px s) as [p|].
  - simpl in I3. destruct (proxy_at w p) as [px|] eqn:E.
    + split; auto. intros px' k Q. injection Q as <-. apply H.
      apply (wf_px _ W px). eapply nth_error_In; eauto.
    + unfold proxy_at in E. apply nth_error_None in E. lia.
  - repeat split; intros l L; apply H.
    + now rewrite L in O1.
    + now rewrite L in O2.
    + now rewrite L in I2.
Qed.

Lemma touch_insts w i s j : nth_error (insts w) i = Some s -> j <> i ->
  nth_error (insts (touch w i s)) j = nth_error (insts w) j.
Proof.
  intros I N. destruct (touch_cases w i s I) as [->|(_ & _ & m & e & b & A & ->)]; auto.
  simpl. rewrite nth_error_upd_neq; auto.
Qed.

Lemma touch_frame w i s : nth_error (insts w) i = Some s ->
  opers (touch w i s) = opers w /\ dicts (touch w i s) = dicts w /\ handles (touch w i s) = handles w /\
  (forall p px, proxy_at w p = Some px -> proxy_at (touch w i s) p = Some px) /\
  (forall l, l < next w -> hget (touch w i s) l = hget w l) /\ next w <= next (touch w i s) /\
  length (insts (touch w i s)) = length (insts w).
Proof.
  intros I. destruct (touch_cases w i s I) as [->|(_ & _ & m & e & b & A & ->)]; [repeat split; auto|].
  repeat split; auto.
  - intros p px P. unfold proxy_at in *; simpl. rewrite nth_error_app1; auto.
    apply nth_error_Some; congruence.
  - intros l L. change (hget (al3 w (hget w m) (hget w e) (hget w b)) l = hget w l). now apply hget_al3_lt.
  - change (next w <= next (al3 w (hget w m) (hget w e) (hget w b))). rewrite next_al3; lia.
  - simpl. apply length_upd.
Qed.

(** reading through a proxy shows nothing new *)
Lemma touch_observe w i s j : wf w -> nth_error (insts w) i = Some s ->
  observe (touch w i s) j = observe w j.
Proof.
  intros W I. destruct (touch_frame w i s I) as (F1 & F2 & F3 & F4 & F5 & F6 & F7).
  destruct (Nat.eq_dec j i) as [->|N].
  - destruct (touch_cases w i s I) as [->|(Pn & Fi & m & e & b & A & E)]; auto.
    assert (I' : nth_error (insts (touch w i s)) i = Some (with_px s (Some (length (proxies w))))).
    { rewrite E. simpl. apply nth_error_upd_eq, nth_error_Some; congruence. }
    rewrite (observe_peek _ _ _ I), (observe_peek _ _ _ I').
    set (s' := with_px s (Some (length (proxies w)))).
    assert (O' : oper_of (touch w i s) s' = oper_of w s) by (unfold oper_of; rewrite F1; reflexivity).
    assert (Ff : fitted (touch w i s) s' = fitted w s) by (unfold fitted; now rewrite O').
    pose proof A as (A1 & A2 & A3 & A4 & A5).
    assert (C : alloc_check w s = Ok tt).
    { unfold alloc_check. rewrite A1, A2, A3, A4, A5, !Nat.eqb_refl. reflexivity. }
    assert (Px : proxy_at (touch w i s) (length (proxies w)) =
       Some (fresh_px w m e b (repeat true (length (hget w e))))).
    { rewrite E. unfold proxy_at; simpl. now rewrite nth_error_app2, Nat.sub_diag. }
    assert (T : forall a, time_out (touch w i s) s' a = time_out w s a).
    { intros a. unfold time_out, get_time, dict_at. rewrite F2. destruct a; reflexivity. }
    unfold peek_arr, peek_mask. rewrite !Ff, !Fi, !T. cbn [s' with_px in_px in_b].
    rewrite !Px, Pn, C, A1, A2, A3.
    rewrite E. change (hget (alloc_world w i s m e b)) with (hget (al3 w (hget w m) (hget w e) (hget w b))).
    cbn [fresh_px px_prox px_m px_e px_a orig3 px_mask]. now rewrite hget_al3_0, hget_al3_1, hget_al3_2.
  - destruct (nth_error (insts w) j) as [sj|] eqn:J.
    + apply (observe_same _ _ _ sj); auto.
      * rewrite touch_insts; auto.
      * apply same_arr_grow; auto. eapply nth_error_wf; eauto.
      * intros a d _. unfold dict_at. now rewrite F2.
    + rewrite !observe_none; auto. rewrite touch_insts; auto.
Qed.

(** ** C02 *)
Theorem setmask_rejected w i v x : wf w -> maskval_ok v ->
  snd (step w (SetMask i v)) = ORaise x ->
  let w' := fst (step w (SetMask i v)) in
  (w' = w \/ w' = fst (step w (GetMask i))) /\
  (forall j, observe w' j = observe w j) /\
  handles w' = handles w /\ (forall h l, nth_error (handles w) h = Some l -> hget w' l = hget w l).
Proof.
  intros W Mv R. cbv zeta. simpl in *. unfold with_inst, of_unit in *.
  destruct (nth_error (insts w) i) as [s|] eqn:I; [|auto].
  rewrite (get_mask_peek w i s I). cbn [fst snd] in *.
  destruct (touch_frame w i s I) as (F1 & F2 & F3 & F4 & F5 & F6 & F7).
  assert (Q : fst (set_mask w i s v) = w \/ fst (set_mask w i s v) = touch w i s).
  { pose proof (set_mask_spec w i s v W Mv I) as S.
    destruct (fitted w s && mv_bool v); [|rewrite S; auto].
    destruct (peek_mask w s) as [m|]; [|rewrite S; auto].
    destruct (list_eq_dec _ _ _); [|rewrite S; auto].
    destruct S as (s1 & p & px & _ & _ & _ & _ & E). rewrite E in R. discriminate. }
  destruct Q as [-> | ->]; [auto|]. repeat split; auto.
  - intros j. now apply touch_observe.
  - intros h l H. apply F5. apply (wf_hd _ W). eapply nth_error_In; eauto.
Qed.

(** which assignments are rejected, and with what *)
Theorem setmask_outcome w i v b : wf w -> maskval_ok v ->
  snd (step w (Fitted i)) = OBool b ->
  snd (step w (SetMask i v)) =
    if b then if mv_bool v then
        match snd (step w (GetMask i)) with
        | OMask m => if list_eq_dec Nat.eq_dec (mv_shape v) [length m] then OUnit else ORaise ValueError
        | o => o
        end
      else ORaise RuntimeError
    else ORaise RuntimeError.
Proof.
  intros W Mv. simpl. unfold with_inst, of_unit.
  destruct (nth_error (insts w) i) as [s|] eqn:I; [|discriminate].
  cbn [snd fst]. intros H; injection H as <-.
  rewrite (get_mask_peek w i s I). cbn [snd].
  pose proof (set_mask_spec w i s v W Mv I) as S.
  destruct (fitted w s); cbn [andb] in S; [|now rewrite S].
  destruct (mv_bool v); [|now rewrite S].
  destruct (peek_mask w s) as [m|x]; [|now rewrite S].
  destruct (list_eq_dec _ _ _); [|now rewrite S].
  destruct S as (s1 & p & px & _ & _ & _ & _ & ->). reflexivity.
Qed.

Theorem setmask_readback w i v : wf w -> maskval_ok v ->
  snd (step w (SetMask i v)) = OUnit ->
  snd (step (fst (step w (SetMask i v))) (GetMask i)) = OMask (mv_data v).
Proof.
  intros W Mv R. simpl in *. unfold with_inst, of_unit in *.
  destruct (nth_error (insts w) i) as [s|] eqn:I; [|discriminate]. cbn [fst snd] in *.
  pose proof (wf_set_mask w i s v W Mv I) as W'.
  pose proof (set_mask_spec w i s v W Mv I) as S.
  destruct (fitted w s && mv_bool v) eqn:FB; [|rewrite S in R; discriminate].
  destruct (peek_mask w s) as [m|]; [|rewrite S in R; discriminate].
  destruct (list_eq_dec _ _ _); [|rewrite S in R; discriminate].
  destruct S as (s1 & p & px & I1 & P1 & Q1 & M1 & E). rewrite E in *. cbn [fst] in *.
  change (insts (mask_world (touch w i s) p px (mv_data v))) with (insts (touch w i s)).
  rewrite I1.
  assert (I1' : nth_error (insts (mask_world (touch w i s) p px (mv_data v))) i = Some s1) by exact I1.
  rewrite (get_mask_peek _ _ _ I1'). cbn [snd]. unfold peek_mask.
  apply andb_prop in FB as [FB _].
  assert (F1 : fitted (mask_world (touch w i s) p px (mv_data v)) s1 = true).
  { destruct (touch_frame w i s I) as (F1 & _).
    unfold fitted, oper_of in *. change (opers (mask_world (touch w i s) p px (mv_data v))) with (opers (touch w i s)).
    rewrite F1. replace (in_op s1) with (in_op s); auto.
    destruct (touch_cases w i s I) as [T|(_ & _ & m' & e' & b' & _ & T)]; rewrite T in I1.
    - congruence.
    - simpl in I1. rewrite nth_error_upd_eq in I1 by (apply nth_error_Some; congruence).
      injection I1 as <-. reflexivity. }
  rewrite F1, P1.
  assert (PA : proxy_at (mask_world (touch w i s) p px (mv_data v)) p =
     Some (fresh_px (flush (touch w i s) px) (px_om px) (px_oe px) (px_oa px) (mv_data v))).
  { unfold proxy_at, mask_world; simpl. apply nth_error_upd_eq.
    apply nth_error_Some. unfold proxy_at in Q1. simpl. congruence. }
  rewrite PA. reflexivity.
Qed.
End P.
