(** * The tuner's view of an instance is that of the model of DMDBase *)
From Coq Require Import List ZArith Lia.
From mathcomp Require Import all_ssreflect all_algebra.
From Verif Require Import Py Model_Base Spec_Base Proofs_Base_View Model_Tuner Spec_Tuner Proofs_Tuner.

Set Implicit Arguments.
Unset Strict Implicit.
Unset Printing Implicit Defensive.

Section Edits.
Variable V : Type.
Implicit Types (l : list (mode V)).

(** [a[0] = vs[0]; a[1] = vs[1]; ...] on the exposed array of kind [k] *)
Definition edits (k : kind) (m : list bool) l (p : list (nat * V)) : list (mode V) :=
  foldl (fun acc q => edit_record acc (true_pos m q.1) k q.2) l p.

Lemma edit_cons (r : mode V) l i k v : edit_record (r :: l) i.+1 k v = r :: edit_record l i k v.
Proof. by rewrite /edit_record /=; case: (nth_error l i). Qed.

Lemma edits_cons k m l q p : edits k m l (q :: p) = edits k m (edit_record l (true_pos m q.1) k q.2) p.
Proof. by []. Qed.

Lemma edits_false m r l k p : edits k (false :: m) (r :: l) p = r :: edits k m l p.
Proof. by elim: p l => // q p IH l; rewrite ?map_cons !edits_cons [true_pos _ _]/= edit_cons IH. Qed.

Lemma edits_true m r l k p :
  edits k (true :: m) (r :: l) [seq (q.1.+1, q.2) | q <- p] = r :: edits k m l p.
Proof. by elim: p l => // q p IH l; rewrite ?map_cons !edits_cons [true_pos _ _]/= edit_cons IH. Qed.
End Edits.
Arguments edits : simpl never.

Section Link.
Variable C : numClosedFieldType.

Lemma put_edits k m (l : seq (mode (entry C))) vs : size m = size l -> size vs = seq.count id m ->
  put k m l vs = edits k m l (zip (iota 0 (size vs)) vs).
Proof.
elim: m l vs => [|[] m IH] [|r l] //= vs.
- by move=> _ /size0nil ->.
- case: vs => [|v vs] //= [e] [e2]; rewrite edits_cons [true_pos _ _]/=.
  rewrite (IH l vs e e2) [edit_record _ _ _ _]/edit_record /=.
  have -> : zip (iota 1 (size vs)) vs = [seq (q.1.+1, q.2) | q <- zip (iota 0 (size vs)) vs].
    by elim: vs 0%N {e2} => //= w vs' IHv i; rewrite -IHv.
  by rewrite edits_true.
- by move=> [e] e2; rewrite edits_false IH.
Qed.
End Link.

Lemma view_sane V (a : view V) o : op_ok o -> view_op o ->
  List.length (v_mask a) = List.length (v_full a) ->
  List.length (v_mask (fst (view_step a o))) = List.length (v_full (fst (view_step a o))).
Proof.
have le t i k (v : V) : List.length (edit_record t i k v) = List.length t.
  by rewrite /edit_record; case: (nth_error t i) => // r; rewrite length_upd.
case: o => [|i f|i k|h j v|i|i v|i k|i w|i w k v|i w k v|i w k|i v|i] //= ok vo e; try by [].
- case: f ok vo => //= n ms es bs [e1 e2] _; rewrite repeat_length.
  by elim: ms es bs e1 e2 => [|x ms IH] [|y es] [|z bs] //= [e1] [e2]; rewrite -(IH es bs).
- case: (nth_error _ _) => [[[k g] len]|] //=; 
  by case: (Nat.ltb _ _) => //=; case: (Nat.eqb _ _) => //=; rewrite le.
  
- move: ok; rewrite /maskval_ok; case: (mv_bool v) => //=.
  case: (list_eq_dec _ _ _) => //= -> /=; lia.
Qed.

Lemma view_run_app V (a : view V) os os' :
  view_run a (os ++ os') =
  (fst (view_run (fst (view_run a os)) os'),
   (snd (view_run a os) ++ snd (view_run (fst (view_run a os)) os'))%list).
Proof.
elim: os a => [|o os IH] a /=; first by case: (view_run a os').
case: (view_step a o) => a1 x; rewrite IH.
by case: (view_run a1 os) => a2 xs /=; case: (view_run a2 os').
Qed.

Lemma view_run_sane V (a : view V) os : Forall op_ok os -> Forall view_op os ->
  List.length (v_mask a) = List.length (v_full a) ->
  List.length (v_mask (fst (view_run a os))) = List.length (v_full (fst (view_run a os))).
Proof.
elim: os a => [|o os IH] a //= H1 H2 e.
have [ok H4] : op_ok o /\ Forall op_ok os by inversion H1.
have [vo H3] : view_op o /\ Forall view_op os by inversion H2.
have := view_sane ok vo e; case: (view_step a o) => a1 x /= e1.
by have := IH a1 H4 H3 e1; case: (view_run a1 os).
Qed.

Lemma length_clear cut m : List.length (clear cut m) = List.length m.
Proof. exact: size_foldl_upd. Qed.

Lemma clear_on_base V n (ms es bs : list V) os cut k :
  List.length ms = List.length es -> List.length bs = List.length es ->
  Forall view_op os -> Forall op_ok os ->
  let a := fst (view_run (view_init ms es bs) os) in
  let m := v_mask a in
  let w := fst (Model_Base.run empty_world (Model_Base.New :: Fit 0 (FitOk n ms es bs) :: nil)) in
  snd (Model_Base.run w (os ++ GetMask 0 :: SetMask 0 (mkMaskval true (List.length m :: nil) (clear cut m))
                        :: GetMask 0 :: Model_Base.Get 0 k :: nil)) =
  (snd (view_run (view_init ms es bs) os) ++
   OMask m :: OUnit :: OMask (clear cut m) :: OArr (List.map (field k) (sel (clear cut m) (v_full a))) :: nil)%list.
Proof.
move=> l1 l2 vo ok a m w.
have s0 : List.length (v_mask (view_init ms es bs)) = List.length (v_full (view_init ms es bs)).
  rewrite /= repeat_length; elim: (ms) (es) (bs) l1 l2 => [|x ms' IH] [|y es'] [|z bs'] //= [e1] [e2].
  by rewrite -(IH es' bs').
have sa : List.length m = List.length (v_full a) by apply: view_run_sane.
rewrite view_refinement //.
- rewrite view_run_app -/a /=; congr (_ ++ _)%list.
  by rewrite -/m; case: (Nat.eq_dec (List.length m) (List.length (v_full a))).
- apply/Forall_app; split=> //; by repeat constructor.
- apply/Forall_app; split=> //; repeat constructor; by rewrite /= /maskval_ok /= length_clear; lia.
Qed.
