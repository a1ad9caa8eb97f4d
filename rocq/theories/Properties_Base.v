(** * DMDBase: properties C01-C05, C17 (lifecycle part), C18

    Model: [Model_Base] (transition system of the public interface of
    DMDBase).  Specification: [Spec_Base].  [V] is the type of the stored
    values (complex numbers, or columns of the mode matrix); nothing about it
    is assumed. *)
From Coq Require Import List ZArith Lia Bool String QArith.
From Verif Require Import Py Model_Base Spec_Base Proofs_Base_View Proofs_Base_Family
  Proofs_Base_Inv Proofs_Base_Share Proofs_Base_Copy Proofs_Base_Fail.
Import ListNotations.
Local Open Scope nat_scope.
Local Notation length := List.length.

(** ** C01 *)

(** Every output of every history of mask assignments, reads, in-place edits
    and refits is that of the specification [view_run]: one table of
    (mode, eigenvalue, amplitude) records and one mask. *)
Theorem C01_mask_is_a_lossless_view :
  forall (V : Type) n (ms es bs : list V) (os : list (op V)),
  length ms = length es -> length bs = length es ->
  Forall view_op os -> Forall op_ok os ->
  snd (run (fst (run empty_world [New; Fit 0 (FitOk n ms es bs)])) os)
  = snd (view_run (view_init ms es bs) os).
Proof. exact @view_refinement. Qed.
Print Assumptions C01_mask_is_a_lossless_view.

(** Disabling everything and enabling everything again shows every value,
    including the edits made in between (in particular nothing is lost). *)
Corollary C01_disable_enable_keeps_edits :
  forall (V : Type) n (ms es bs : list V) m1 m2 k j v,
  length ms = length es -> length bs = length es ->
  length m1 = length es -> length m2 = length es -> j < count m1 ->
  let full := mkMaskval true [length es] (repeat true (length es)) in
  snd (run (fst (run empty_world [New; Fit 0 (FitOk n ms es bs)]))
     [SetMask 0 (mkMaskval true [length es] m1); Get 0 k; Edit 0 j v;
      SetMask 0 (mkMaskval true [length es] m2); SetMask 0 full; Get 0 KModes; Get 0 KEigs; Get 0 KAmps])
  = let t := edit_record (zip3 ms es bs) (true_pos m1 j) k v in
    [OUnit; OArr (map (field k) (sel m1 (zip3 ms es bs))); OUnit; OUnit; OUnit;
     OArr (map m_phi t); OArr (map m_lam t); OArr (map m_amp t)].
Proof.
  intros V n ms es bs m1 m2 k j v L1 L2 M1 M2 Hj full. rewrite C01_mask_is_a_lossless_view; auto.
  - assert (LZ : List.length (zip3 ms es bs) = List.length es).
    { clear M1 M2 Hj full. revert es bs L1 L2. induction ms; destruct es, bs; simpl; intros; try lia; auto. }
    assert (LE : forall t i k' v', List.length (@edit_record V t i k' v') = List.length t).
    { intros. unfold edit_record. destruct (nth_error t i); auto. apply length_upd. }
    assert (SM : forall (a : view V) m, List.length (v_full a) = List.length es ->
       view_step a (SetMask 0 (mkMaskval true [List.length es] m)) =
         (mkView (v_full a) m (S (v_gen a)) (v_env a), OUnit)).
    { intros a m Ha. unfold view_step. cbn [mv_bool mv_shape mv_data]. rewrite Ha.
      destruct (list_eq_dec Nat.eq_dec [List.length es] [List.length es]) as [_|N]; [auto|congruence]. }
    assert (ED : forall (a : view V), v_env a = [(k, v_gen a, count (v_mask a))] -> j < count (v_mask a) ->
       view_step a (Edit 0 j v) =
         (mkView (edit_record (v_full a) (true_pos (v_mask a) j) k v) (v_mask a) (v_gen a) (v_env a), OUnit)).
    { intros a Ha Hb. unfold view_step. rewrite Ha. cbn [nth_error].
      destruct (Nat.ltb_spec j (count (v_mask a))); [|lia]. now rewrite Nat.eqb_refl. }
    assert (GE : forall (a : view V) k', view_step a (Get 0 k') =
       (mkView (v_full a) (v_mask a) (v_gen a) (v_env a ++ [(k', v_gen a, count (v_mask a))]), OArr (exposed a k'))) by reflexivity.
    unfold full. unfold view_init.
    cbn [view_run]. rewrite SM by exact LZ. cbn [v_full v_mask v_gen v_env app].
    rewrite GE. cbn [v_full v_mask v_gen v_env app].
    rewrite ED by auto. cbn [v_full v_mask v_gen v_env app].
    rewrite SM by (cbn [v_full]; rewrite LE; exact LZ). cbn [v_full v_mask v_gen v_env app].
    rewrite SM by (cbn [v_full]; rewrite LE; exact LZ). cbn [v_full v_mask v_gen v_env app].
    rewrite !GE. cbn [v_full v_mask v_gen v_env app].
    unfold exposed. cbn [snd v_full v_mask].
    rewrite <- LZ, <- (LE (zip3 ms es bs) (true_pos m1 j) k v).
    assert (SR : forall (A : Type) (l : list A), sel (repeat true (List.length l)) l = l).
    { clear. induction l; simpl; congruence. }
    rewrite !SR. reflexivity.
  - repeat constructor.
  - repeat constructor; simpl; unfold maskval_ok; simpl; rewrite ?repeat_length; lia.
Qed.
Print Assumptions C01_disable_enable_keeps_edits.

Example C01_example :
  Forall (@view_op nat) [SetMask 0 (mkMaskval true [3] [true; false; true]); Get 0 KEigs; Edit 0 1 77;
                   SetMask 0 (mkMaskval true [3] [false; true; true]); Get 0 KEigs] /\
  snd (run (fst (run empty_world [New; Fit 0 (FitOk 5 [1;2;3] [4;5;6] [7;8;9])]))
        [SetMask 0 (mkMaskval true [3] [true; false; true]); Get 0 KEigs; Edit 0 1 77;
         SetMask 0 (mkMaskval true [3] [false; true; true]); Get 0 KEigs])
  = [OUnit; OArr [4;6]; OUnit; OUnit; OArr [5;77]].
Proof. split; [repeat constructor|vm_compute; reflexivity]. Qed.

(** ** C02 *)

(** In any state reachable by any operations: what an assignment returns.  The
    shape required is that of the mask currently read. *)
Theorem C02_assignment_outcome :
  forall (V : Type) (os : list (op V)) i v b, Forall op_ok os -> maskval_ok v ->
  let w := fst (run empty_world os) in
  snd (step w (Fitted i)) = OBool b ->
  snd (step w (SetMask i v)) =
    if b then if mv_bool v then
        match snd (step w (GetMask i)) with
        | OMask m => if list_eq_dec Nat.eq_dec (mv_shape v) [length m] then OUnit else ORaise ValueError
        | o => o
        end
      else ORaise RuntimeError
    else ORaise RuntimeError.
Proof. intros V os i v b O Mv w. apply setmask_outcome; auto. now apply wf_reach. Qed.
Print Assumptions C02_assignment_outcome.

Theorem C02_rejected_changes_nothing :
  forall (V : Type) (os : list (op V)) i v x, Forall op_ok os -> maskval_ok v ->
  let w := fst (run empty_world os) in
  snd (step w (SetMask i v)) = ORaise x ->
  let w' := fst (step w (SetMask i v)) in
  (forall j, observe w' j = observe w j) /\
  handles w' = handles w /\ (forall h l, nth_error (handles w) h = Some l -> hget w' l = hget w l).
Proof.
  intros V os i v x O Mv w R w'.
  destruct (setmask_rejected w i v x) as (_ & H); auto. now apply wf_reach.
Qed.
Print Assumptions C02_rejected_changes_nothing.

Theorem C02_accepted_is_read_back :
  forall (V : Type) (os : list (op V)) i v, Forall op_ok os -> maskval_ok v ->
  let w := fst (run empty_world os) in
  snd (step w (SetMask i v)) = OUnit ->
  snd (step (fst (step w (SetMask i v))) (GetMask i)) = OMask (mv_data v).
Proof. intros V os i v O Mv w. apply setmask_readback; auto. now apply wf_reach. Qed.
Print Assumptions C02_accepted_is_read_back.

Example C02_example :
  let w := fst (run empty_world [New; Fit 0 (FitOk 5 [1;2;3] [4;5;6] [7;8;9]);
                                 SetMask 0 (mkMaskval true [3] [true; false; true])]) in
  snd (step w (SetMask 0 (mkMaskval true [2] [true; true]))) = ORaise ValueError /\
  snd (step w (SetMask 0 (mkMaskval false [3] [true; true; true]))) = ORaise RuntimeError /\
  snd (step w (SetMask 0 (mkMaskval true [3; 1] [true; true; true]))) = ORaise ValueError /\
  snd (step w (SetMask 0 (mkMaskval true [3] [true; true; false]))) = OUnit /\
  snd (step (fst (step empty_world New)) (@SetMask nat 0 (mkMaskval true [1] [true]))) = ORaise RuntimeError.
Proof. vm_compute. auto. Qed.

(** ** C03 *)

(** After any history of reads, mask assignments and indexing on a fitted
    instance and its copies, indexing instance [i]. *)
Theorem C03_indexing :
  forall (V : Type) n (ms es bs : list V) os i key,
  length ms = length es -> length bs = length es -> Forall fam_op os -> Forall op_ok os ->
  let N := length es in
  let w := fst (run empty_world (New :: Fit 0 (FitOk n ms es bs) :: os)) in
  let j := length (insts w) in
  i < j ->
  let r := snd (step w (GetItem i key)) in
  let w' := fst (step w (GetItem i key)) in
  (~ key_type_ok key -> r = ORaise ValueError) /\
  (key_type_ok key -> ~ key_range_ok N key -> r = ORaise IndexError) /\
  (key_type_ok key -> key_range_ok N key -> r = OInst j /\
     exists m, length m = N /\ (forall p, p < N -> (nth_error m p = Some true <-> key_selects N key p)) /\
       snd (step w' (GetMask j)) = OMask m /\
       forall k, snd (step w' (Get j k)) = OArr (sel m (table ms es bs k))) /\
  (forall i', i' < j -> observe w' i' = observe w i').
Proof. exact @getitem_result. Qed.
Print Assumptions C03_indexing.

Example C03_example :
  let w := fst (run empty_world [New; Fit 0 (FitOk 9 [1;2;3;4;5] [11;12;13;14;15] [21;22;23;24;25]);
                                 SetMask 0 (mkMaskval true [5] [true; false; false; false; false])]) in
  key_type_ok (KSl (mkSlice None None (Some (-2)%Z))) /\ key_range_ok 5 (KSl (mkSlice None None (Some (-2)%Z))) /\
  snd (run w [GetItem 0 (KSl (mkSlice None None (Some (-2)%Z))); Get 1 KEigs; GetMask 0])
    = [OInst 1; OArr [11; 13; 15]; OMask [true; false; false; false; false]] /\
  snd (run w [GetItem 0 (KList [EInt 3; EInt (-5)%Z]); Get 1 KAmps]) = [OInst 1; OArr [21; 24]] /\
  snd (run w [GetItem 0 (KInt 5)]) = [ORaise IndexError] /\
  snd (run w [GetItem 0 (KList [EInt 0; EInt 0])]) = [ORaise ValueError] /\
  snd (run w [GetItem 0 (KList [EInt 0; EInt (-5)%Z]); GetMask 1]) = [OInst 1; OMask [true; false; false; false; false]] /\
  snd (run w [GetItem 0 (KArr 2 true)]) = [ORaise ValueError].
Proof.
  cbv zeta. split; [discriminate|]. split; [exact Logic.I|].
  repeat apply conj; vm_compute; reflexivity.
Qed.

(** A boolean, accepted because bool is a subclass of int, selects all modes
    or none, not position 1 or 0. *)
Theorem C03_bool_key_is_a_position_refuted :
  exists n, n > 1 /\
  snd (run (fst (run empty_world [New; Fit 0 (FitOk 9 (seq 0 n) (seq 0 n) (seq 0 n))]))
       [GetItem 0 (KBool true); Get 1 KEigs]) = [OInst 1; OArr (seq 0 n)].
Proof. exists 3. split; [lia|vm_compute; reflexivity]. Qed.
Print Assumptions C03_bool_key_is_a_position_refuted.

(** ** C04

    [reach w]: [w] is reachable by operations of any kind in which no instance
    is fitted again while it shares its operator with another instance. *)
Theorem C04_mask_assignment_is_private :
  forall (V : Type) (w : world V) i j v, reach w -> maskval_ok v -> i <> j ->
  observe (fst (step w (SetMask i v))) j = observe w j.
Proof. exact @setmask_frame. Qed.
Print Assumptions C04_mask_assignment_is_private.

Theorem C04_time_assignment_is_private :
  forall (V : Type) (w : world V) i j v, reach w -> i <> j ->
  observe (fst (step w (TimeAssign i v))) j = observe w j.
Proof.
  intros V w i j v R N. apply timeassign_frame; auto. intros s J.
  eapply nth_error_wf; eauto. now apply reach_wf.
Qed.
Print Assumptions C04_time_assignment_is_private.

Theorem C04_reads_indexing_and_fits_are_private :
  forall (V : Type) (w : world V) i j, reach w -> i <> j ->
  (forall k, observe (fst (step w (Get i k))) j = observe w j) /\
  observe (fst (step w (GetMask i))) j = observe w j /\
  (forall k, j < length (insts w) -> observe (fst (step w (GetItem i k))) j = observe w j) /\
  (forall f, alone w i -> observe (fst (step w (Fit i f))) j = observe w j).
Proof.
  intros V w i j R N. pose proof (reach_wf _ R) as W. repeat split; intros.
  - now apply get_frame.
  - now apply getmask_frame.
  - now apply getitem_frame.
  - now apply fit_frame.
Qed.
Print Assumptions C04_reads_indexing_and_fits_are_private.

Theorem C04_array_edits_are_private :
  forall (V : Type) (w : world V) i k j n v, reach w -> i <> j ->
  observe (fst (run w [Get i k; Edit (length (handles w)) n v])) j = observe w j.
Proof. exact @edit_frame. Qed.
Print Assumptions C04_array_edits_are_private.

(** As long as neither gets a new time dictionary, original and copy show the
    same two dictionaries whatever is done to either. *)
Theorem C04_time_items_are_shared :
  forall (V : Type) (w : world V) i key j os a, reach w ->
  snd (step w (GetItem i key)) = OInst j ->
  Forall op_ok os -> Forall (keeps_time i) os -> Forall (keeps_time j) os ->
  let w' := fst (run (fst (step w (GetItem i key))) os) in
  snd (step w' (TimeGet i a)) = snd (step w' (TimeGet j a)).
Proof. intros V w i key j os a R. apply copy_time_shared. now apply reach_wf. Qed.
Print Assumptions C04_time_items_are_shared.

(** An in-place edit made right before indexing does not reach the copy. *)
Theorem C04_pending_edits_are_absent_from_the_copy :
  forall (V : Type) (w : world V) i k n v key k', reach w ->
  let h := length (handles w) in let j := length (insts w) in
  let w1 := fst (step w (Get i k)) in
  let w2 := fst (step w1 (Edit h n v)) in
  snd (step w2 (GetItem i key)) = snd (step w1 (GetItem i key)) /\
  snd (run w2 [GetItem i key; Get j k']) = snd (run w1 [GetItem i key; Get j k']).
Proof. exact @pending_edit_absent. Qed.
Print Assumptions C04_pending_edits_are_absent_from_the_copy.

Definition ex04a : world nat := fst (step empty_world New).
Definition ex04b : world nat := fst (step ex04a (Fit 0 (FitOk 9 [1;2;3] [11;12;13] [21;22;23]))).
Definition ex04 : world nat := fst (step ex04b (GetItem 0 (KSl (mkSlice (Some 1%Z) None None)))).
Lemma ex04_reach : reach ex04.
Proof.
  assert (A : reach ex04a) by exact (reach_step _ New reach_empty Logic.I Logic.I).
  assert (B : reach ex04b).
  { refine (reach_step ex04a _ A _ _); [split; reflexivity|].
    intros j s t H1 H2 _. destruct j as [|[|j]]; [reflexivity|discriminate|discriminate]. }
  exact (reach_step ex04b (GetItem 0 _) B Logic.I Logic.I).
Qed.
Example C04_example :
  reach ex04 /\
  (* the mask of the copy changes, the original does not *)
  snd (run ex04 [SetMask 1 (mkMaskval true [3] [false;false;true]); Get 1 KEigs; Get 0 KEigs; GetMask 0])
    = [OUnit; OArr [13]; OArr [11;12;13]; OMask [true;true;true]] /\
  (* dmd_time is shared *)
  snd (run ex04 [TimeSet 1 Dmd "tend"%string 4; TimeGet 0 Dmd])
    = [OUnit; ODict [("t0", 0); ("tend", 4); ("dt", 1)]%string%Q] /\
  (* a pending edit is seen by the original only *)
  snd (run ex04 [Get 0 KEigs; Edit 0 0 99; GetItem 0 (KInt 0); Get 2 KEigs; Get 0 KEigs])
    = [OArr [11;12;13]; OUnit; OInst 2; OArr [11]; OArr [99;12;13]].
Proof. split; [apply ex04_reach|]. vm_compute. auto. Qed.

(** Fitting the copy and then the original: the operator object is shared, so
    the original's modes change when the copy is fitted (the original's
    amplitudes and mask stay).  Without the restriction in [reach] the claim
    that original and copy are independent is false. *)
Theorem C04_refit_of_copy_is_private_refuted :
  exists (os : list (op nat)) f,
    Forall op_ok os /\ fit_ok f /\
    observe (fst (step (fst (run empty_world os)) (Fit 1 f))) 0 <> observe (fst (run empty_world os)) 0.
Proof.
  exists [New; Fit 0 (FitOk 9 [1;2] [3;4] [5;6]); GetItem 0 (KInt 0); Fit 0 (FitOk 9 [1;2] [3;4] [5;6])],
         (FitOk 9 [7] [8] [9]).
  repeat split; [repeat constructor|]. vm_compute. discriminate.
Qed.
Print Assumptions C04_refit_of_copy_is_private_refuted.

(** ** C05 *)
Theorem C05_keys_are_kept :
  forall (V : Type) (os : list (op V)) i a d, Forall op_ok os -> Forall time_op_ok os ->
  snd (step (fst (run empty_world os)) (TimeGet i a)) = ODict d -> map fst d = ["t0"; "tend"; "dt"]%string.
Proof. exact @time_keys_kept. Qed.
Print Assumptions C05_keys_are_kept.

Theorem C05_foreign_key_is_rejected :
  forall (V : Type) (os : list (op V)) i a k v, Forall op_ok os -> Forall time_op_ok os ->
  ~ In k ["t0"; "tend"; "dt"]%string ->
  let w := fst (run empty_world os) in
  i < length (insts w) ->
  fst (step w (TimeSet i a k v)) = w /\
  (snd (step w (TimeSet i a k v)) = ORaise KeyError \/
   (snd (step w (TimeSet i a k v)) = ORaise RuntimeError /\ snd (step w (TimeGet i a)) = ORaise RuntimeError)).
Proof. exact @time_foreign_key. Qed.
Print Assumptions C05_foreign_key_is_rejected.

(** The two dictionaries of any instance (and of any two instances) are
    different objects: no item operation on one shows in the other. *)
Theorem C05_original_and_dmd_time_are_independent :
  forall (V : Type) (os : list (op V)) i j a a' o, Forall op_ok os -> a <> a' ->
  let w := fst (run empty_world os) in
  match o with
  | TimeSet i' b _ _ | TimeUpdate i' b _ _ | TimeDel i' b _ => i' = i /\ b = a
  | _ => False end ->
  snd (step (fst (step w o)) (TimeGet j a')) = snd (step w (TimeGet j a')).
Proof.
  intros V os i j a a' o F N w. apply (time_isolated w i j a a' o); auto.
  - now apply wf_reach.
  - now apply disjoint_reach.
Qed.
Print Assumptions C05_original_and_dmd_time_are_independent.

Theorem C05_item_assignment_is_read_back :
  forall (V : Type) (os : list (op V)) i a k v d, Forall op_ok os ->
  let w := fst (run empty_world os) in
  snd (step w (TimeGet i a)) = ODict d -> snd (step w (TimeSet i a k v)) = OUnit ->
  exists d', snd (step (fst (step w (TimeSet i a k v))) (TimeGet i a)) = ODict d' /\
    d_get d' k = Some v /\ forall k', k' <> k -> d_get d' k' = d_get d k'.
Proof.
  intros V os i a k v d F w G S. exists (d_put d k v). split.
  - apply time_set_read; auto. now apply wf_reach.
  - split; [rewrite d_get_put, String.eqb_refl; auto|].
    intros k' N. rewrite d_get_put. destruct (String.eqb_spec k' k); congruence.
Qed.
Print Assumptions C05_item_assignment_is_read_back.

Theorem C05_before_fit_original_time_raises :
  forall (V : Type) (os : list (op V)) i, Forall op_ok os ->
  let w := fst (run empty_world os) in
  snd (step w (Fitted i)) = OBool false ->
  snd (step w (TimeGet i Original)) = ORaise RuntimeError.
Proof. exact @time_before_fit. Qed.
Print Assumptions C05_before_fit_original_time_raises.

Example C05_example :
  snd (run (@empty_world nat)
    [New; TimeGet 0 Dmd; Fit 0 (FitOk 9 [1] [2] [3]); TimeSet 0 Dmd "tend"%string 20; TimeSet 0 Dmd "end"%string 1;
     TimeGet 0 Dmd; TimeGet 0 Original])
  = [OInst 0; ORaise RuntimeError; OUnit; OUnit; ORaise KeyError;
     ODict [("t0", 0); ("tend", 20); ("dt", 1)]%string%Q; ODict [("t0", 0); ("tend", 9 - 1); ("dt", 1)]%string%Q].
Proof. vm_compute. reflexivity. Qed.

(** Without [time_op_ok] the key invariant fails: [update], [del] and the
    assignment of a plain dictionary bypass the check. *)
Theorem C05_keys_are_kept_by_any_operation_refuted :
  exists (os1 os2 os3 : list (op nat)),
    (forall os, In os [os1; os2; os3] -> Forall op_ok os /\
       exists d, snd (step (fst (run empty_world os)) (TimeGet 0 Dmd)) = ODict d /\
                 map fst d <> ["t0"; "tend"; "dt"]%string).
Proof.
  exists [New; Fit 0 (FitOk 9 [1] [2] [3]); TimeUpdate 0 Dmd "foo"%string 1],
         [New; Fit 0 (FitOk 9 [1] [2] [3]); TimeDel 0 Dmd "dt"%string],
         [New; Fit 0 (FitOk 9 [1] [2] [3]); TimeAssign 0 (Some (mkDict false [("foo", 1)%Q]))]%string.
  intros os H. simpl in H. destruct H as [<-|[<-|[<-|[]]]]; (split; [repeat constructor|]);
    eexists; (split; [vm_compute; reflexivity|discriminate]).
Qed.
Print Assumptions C05_keys_are_kept_by_any_operation_refuted.

(** ** C17 (lifecycle part) and C18 *)

(** After a successful fit the instance shows exactly the fitted values,
    whatever happened before (including failed fits and edits). *)
Theorem C17_successful_fit_shows_only_the_new_fit :
  forall (V : Type) (os : list (op V)) i n ms es bs, Forall op_ok os ->
  let w := fst (run empty_world os) in
  i < length (insts w) -> length ms = length es -> length bs = length es ->
  let T := ODict [("t0", 0); ("tend", inject_Z (Z.of_nat n) - 1); ("dt", 1)]%string%Q in
  snd (step w (Fit i (FitOk n ms es bs))) = OUnit /\
  observe (fst (step w (Fit i (FitOk n ms es bs)))) i =
    [OBool true; OArr ms; OArr es; OArr bs; OMask (repeat true (length es)); T; T].
Proof. intros. apply refit_fresh; auto. now apply wf_reach. Qed.
Print Assumptions C17_successful_fit_shows_only_the_new_fit.

(** After a fit that raised, from any reachable state: no amplitudes, no mask. *)
Theorem C18_failed_fit_exposes_no_amplitudes_or_mask :
  forall (V : Type) (os : list (op V)) i f x b, Forall op_ok os -> fit_ok f -> crash_exn f = Some x ->
  let w := fst (run empty_world os) in
  snd (step w (Fitted i)) = OBool b ->
  let w' := fst (step w (Fit i f)) in
  let b' := b || (match f with CAmp _ _ _ _ => true | _ => false end) in
  snd (step w (Fit i f)) = ORaise x /\
  snd (step w' (Fitted i)) = OBool b' /\
  snd (step w' (Get i KAmps)) = (if b' then ORaise AttributeError else ONone) /\
  snd (step w' (GetMask i)) = (if b' then ORaise AttributeError else ORaise RuntimeError) /\
  (forall v, exists y, snd (step w' (SetMask i v)) = ORaise y) /\
  (forall k, exists y, snd (step w' (GetItem i k)) = ORaise y).
Proof.
  intros V os i f x b F Fo C w B w' b'.
  replace b' with (b || reached_operator f) by (destruct f; auto; discriminate).
  apply failed_fit; auto. now apply wf_reach.
Qed.
Print Assumptions C18_failed_fit_exposes_no_amplitudes_or_mask.

(** After a failed refit (no in-place edits before) the operator's previous
    modes are shown in full, without the mask that was set; the eigenvalues are
    the previous ones unless the failure came after they were recomputed. *)
Theorem C18_failed_refit_shows_the_operator :
  forall (V : Type) n (ms es bs : list V) os i f x,
  length ms = length es -> length bs = length es ->
  Forall fam_op os -> Forall op_ok os -> fit_ok f -> crash_exn f = Some x ->
  let w := fst (run empty_world (New :: Fit 0 (FitOk n ms es bs) :: os)) in
  i < length (insts w) ->
  let w' := fst (step w (Fit i f)) in
  snd (step w' (Fitted i)) = OBool true /\
  snd (step w' (Get i KModes)) = OArr (match f with CAmp _ ms' _ _ => ms' | _ => ms end) /\
  snd (step w' (Get i KEigs)) = OArr (match f with CAmp _ _ es' _ | CEig _ es' _ => es' | _ => es end).
Proof. exact @failed_refit_shows. Qed.
Print Assumptions C18_failed_refit_shows_the_operator.

Example C18_example :
  let os := [New; Fit 0 (FitOk 9 [1;2] [3;4] [5;6]); SetMask 0 (mkMaskval true [2] [true;false])] in
  snd (run (fst (run empty_world os)) [Get 0 KModes; Fit 0 (CSnap ValueError); Fitted 0; Get 0 KModes; Get 0 KAmps; GetMask 0])
  = [OArr [1]; ORaise ValueError; OBool true; OArr [1;2]; ORaise AttributeError; ORaise AttributeError].
Proof. vm_compute. reflexivity. Qed.

(** A failed refit can leave modes of one fit beside eigenvalues of another,
    and a failed first fit can be reported as fitted. *)
Theorem C18_failed_fit_is_all_or_nothing_refuted :
  (exists os : list (op nat), Forall op_ok os /\
     snd (run (fst (run empty_world os)) [Fitted 0; Get 0 KModes; Get 0 KEigs])
       = [OBool true; OArr [1;2]; OArr [7;8;9]]) /\
  (exists os : list (op nat), Forall op_ok os /\ (forall i f, In (Fit i f) os -> crash f) /\
     snd (step (fst (run empty_world os)) (Fitted 0)) = OBool true).
Proof.
  split.
  - exists [New; Fit 0 (FitOk 9 [1;2] [3;4] [5;6]); Fit 0 (CEig 9 [7;8;9] ValueError)].
    split; [repeat constructor|vm_compute; reflexivity].
  - exists [New; Fit 0 (CAmp 9 [1;2] [3;4] ValueError)]. split; [repeat constructor|]. split; [|vm_compute; reflexivity].
    intros i f [H|[H|[]]]; [discriminate|]. injection H as <- <-. exact Logic.I.
Qed.
Print Assumptions C18_failed_fit_is_all_or_nothing_refuted.
