(** * C43: the windows of a COSTS object *)
From Coq Require Import ZArith List Bool Lia.
From Verif Require Import Py Model_CostsWin Spec_CostsWin Proofs_CostsWin.
Import ListNotations.
Local Open Scope nat_scope.
Local Notation "# n" := (Z.of_nat n) (at level 5, format "# n").

(** ** the layout, whatever the rounding *)
Theorem C43_layout fl s vars T w d : 0 < w -> w <= T -> 0 < d -> rounds fl #T #w ->
  exists s' l, fit_windows fl s vars #T #T #w #d = (s', Ok tt) /\ windows_of s' l /\ tiling T w d l.
Proof.
intros w0 wT d0 R. destruct (fit_windowsE fl s vars T w d w0 wT d0 R) as [b [F _]].
eexists. exists (listed T w d). split; [exact F|]. split; [now apply (listed_of fl s vars T w d)|].
now apply listed_tiling.
Qed.
Print Assumptions C43_layout.

Theorem C43_inside T w d l : w <= T -> tiling T w d l ->
  forall ws, In ws l -> length ws = w /\ Forall (fun t => t < T) ws /\ NoDup ws.
Proof.
intros wT H ws I. destruct (In_nth_error _ _ I) as [k E]. rewrite (each_window _ _ _ _ H _ _ E).
split; [apply seq_length|]. split; [|apply seq_NoDup]. apply Forall_forall. intros t. rewrite in_seq. lia.
Qed.
Print Assumptions C43_inside.

(** all time steps are covered exactly when the step is at most the window length, or the data is no longer
    than two windows *)
Theorem C43_covers T w d l : 0 < w -> w <= T -> 0 < d -> tiling T w d l ->
  (forall t, t < T -> covered l t) <-> d <= w \/ T <= 2 * w.
Proof.
intros w0 wT d0 H.
assert (L : l <> []) by apply H.
assert (at_k : forall k, k < length l -> In (seq (Nat.min (k * d) (T - w)) w) l).
{ intros k K. destruct (nth_error l k) as [ws |] eqn:E.
  - rewrite <- (each_window _ _ _ _ H _ _ E). eapply nth_error_In; eauto.
  - apply nth_error_None in E. lia. }
assert (P : 0 < length l) by (destruct l; simpl; [easy | lia]).
assert (Last : T - w <= (length l - 1) * d).
{ destruct (last_window _ _ _ _ H (length l - 1) ltac:(lia)) as [_ X]. specialize (X eq_refl). lia. }
split.
- intros A. destruct (le_lt_dec d w) as [|D]; [now left|]. destruct (le_lt_dec T (2 * w)) as [|B]; [now right|].
  exfalso. destruct (A w ltac:(lia)) as [ws [I J]]. destruct (In_nth_error _ _ I) as [k E].
  rewrite (each_window _ _ _ _ H _ _ E) in J. rewrite in_seq in J. destruct k; simpl in J; [lia|]. nia.
- intros D t tT.
  destruct (le_lt_dec (T - w) t) as [G | G].
  + exists (seq (Nat.min ((length l - 1) * d) (T - w)) w). split; [apply at_k; lia|]. rewrite in_seq. lia.
  + destruct D as [D | D].
    * (* the window number t / d *)
      assert (E := Nat.div_mod t d ltac:(lia)). assert (M := Nat.mod_upper_bound t d ltac:(lia)).
      revert E M. generalize (t / d), (t mod d). intros q r E M.
      exists (seq (Nat.min (q * d) (T - w)) w). split; [apply at_k; nia|]. rewrite in_seq. nia.
    * exists (seq (Nat.min (0 * d) (T - w)) w). split; [apply at_k; lia|]. rewrite in_seq. lia.
Qed.
Print Assumptions C43_covers.

(** ** which calls are refused *)
Theorem C43_errors fl s vars times tsize wl step :
  snd (fit_windows fl s vars times tsize wl step) =
    (if times =? tsize then
       if (wl =? 0) || (step =? 0) then Err ZeroDivisionError else if times <? wl then Err ValueError else Ok tt
     else Err ValueError)%Z.
Proof.
unfold fit_windows, build_windows.
destruct (times =? tsize)%Z; [|reflexivity]. destruct (wl =? 0)%Z; [reflexivity|].
destruct (step =? 0)%Z; [reflexivity|]. simpl. destruct (times <? wl)%Z; [reflexivity|].
now destruct (0 <? _)%Z.
Qed.
Print Assumptions C43_errors.

(** A refused fit does not leave the object as it was: after a fit with windows of length [w], a call with
    misaligned time instants raises ValueError, and the first window of the object is now of length [w2]. *)
Theorem C43_failed_refit_refuted fl s vars T w d s1 T2 w2 d2 vars2 tsize :
  0 < w -> w <= T -> 0 < d -> rounds fl #T #w ->
  fit_windows fl s vars #T #T #w #d = (s1, Ok tt) ->
  0 < w2 -> w2 <= T2 -> T2 <> tsize -> w < w2 ->
  exists s2, fit_windows fl s1 vars2 #T2 #tsize #w2 #d2 = (s2, Err ValueError) /\
             w_slides s2 = w_slides s1 /\ window s2 0 <> window s1 0.
Proof.
intros w0 wT d0 R E w20 wT2 N W. unfold fit_windows at 1.
assert (#T2 =? #tsize = false)%Z as -> by (apply Z.eqb_neq; lia).
eexists. split; [reflexivity|]. split; [reflexivity|].
destruct (listed_of _ _ _ _ _ _ _ w0 wT d0 R E) as [_ X].
assert (P := count_pos T w d).
rewrite (X 0 (seq (Nat.min (0 * d) (T - w)) w)).
2:{ unfold listed. rewrite nth_error_map. destruct (count T w d); [lia | reflexivity]. }
destruct (fit_windowsE fl s vars T w d w0 wT d0 R) as [b [F _]]. rewrite E in F. injection F as ->.
unfold window, get_window_indices. simpl w_times; simpl w_step; simpl w_length; simpl w_slides; simpl w_nonint. cbv iota.
rewrite Nat2Z.id.
assert (A : forall st m, length (seq st w2) <> length (seq m w)) by (intros; rewrite !seq_length; lia).
destruct ((_ =? _)%Z && b); simpl bind.
- rewrite slice_tail by lia. intros C. injection C as C. apply (f_equal (@length nat)) in C. revert C. apply A.
- rewrite Z.mul_0_r, Z.add_0_l. change 0%Z with #0. rewrite slice_run by lia.
  rewrite Nat.sub_0_r. intros C. injection C as C. apply (f_equal (@length nat)) in C. revert C. apply A.
Qed.
Print Assumptions C43_failed_refit_refuted.

(** ten time steps, windows of four moved by three: three windows, all aligned; moved by four: the third one is
    shifted back to end with the data *)
Example C43_case : exists s1 s2,
  fit_windows (fun t _ => t) no_wins 2 10 10 4 3 = (s1, Ok tt) /\
  windows_of s1 [[0;1;2;3];[3;4;5;6];[6;7;8;9]] /\
  fit_windows (fun t _ => (t - 1)%Z) s1 2 10 10 4 4 = (s2, Ok tt) /\
  windows_of s2 [[0;1;2;3];[4;5;6;7];[6;7;8;9]].
Proof.
do 2 eexists. split; [reflexivity|]. split.
- split; [reflexivity|]. intros [|[|[|[|]]]] ws E; vm_compute in E; try discriminate; injection E as <-; reflexivity.
- split; [reflexivity|]. split; [reflexivity|].
  intros [|[|[|[|]]]] ws E; vm_compute in E; try discriminate; injection E as <-; reflexivity.
Qed.
