(** * Specification of the mode view (property C01)

    Independent of the model: one list of (mode, eigenvalue, amplitude)
    records, one mask, and nothing else that matters to a reader.  [gen] and
    [env] only say which of the arrays handed out earlier are still live: an
    array obtained before the latest accepted mask assignment (or fit) is an
    ordinary detached copy. *)

From Coq Require Import List ZArith Bool.
From Verif Require Import Py Model_Base.
Import ListNotations.
Local Open Scope nat_scope.

Section Spec.
Context {V : Type}.

Record mode := mkMode { m_phi : V; m_lam : V; m_amp : V }.

Definition field (k : kind) (r : mode) : V :=
  match k with KModes => m_phi r | KEigs => m_lam r | KAmps => m_amp r end.

Definition set_field (k : kind) (v : V) (r : mode) : mode :=
  match k with
  | KModes => mkMode v (m_lam r) (m_amp r)
  | KEigs => mkMode (m_phi r) v (m_amp r)
  | KAmps => mkMode (m_phi r) (m_lam r) v
  end.

Record view := mkView {
  v_full : list mode;
  v_mask : list bool;
  v_gen : nat;
  v_env : list (kind * nat * nat) }.   (* kind, generation, length *)

(** what the properties modes / eigs / amplitudes show *)
Definition exposed (a : view) (k : kind) : list V :=
  map (field k) (sel (v_mask a) (v_full a)).

Fixpoint zip3 (ms es bs : list V) : list mode :=
  match ms, es, bs with
  | m :: ms', e :: es', b :: bs' => mkMode m e b :: zip3 ms' es' bs'
  | _, _, _ => []
  end.

Definition edit_record (l : list mode) (i : nat) (k : kind) (v : V) : list mode :=
  match nth_error l i with
  | Some r => upd l i (set_field k v r)
  | None => l
  end.

(** Operations on the single instance 0 that C01 talks about. *)
Definition view_op (o : op V) : Prop :=
  match o with
  | Get 0 _ | Edit _ _ _ | GetMask 0 | SetMask 0 _ | Fitted 0
  | Fit 0 (FitOk _ _ _ _) => True
  | _ => False
  end.

Definition view_step (a : view) (o : op V) : view * out V :=
  match o with
  | Get _ k =>
      (mkView (v_full a) (v_mask a) (v_gen a)
              (v_env a ++ [(k, v_gen a, count (v_mask a))]),
       OArr (exposed a k))
  | Edit h j v =>
      match nth_error (v_env a) h with
      | None => (a, ORaise NameError)
      | Some (k, g, len) =>
          if j <? len then
            (if g =? v_gen a
             then mkView (edit_record (v_full a) (true_pos (v_mask a) j) k v)
                         (v_mask a) (v_gen a) (v_env a)
             else a, OUnit)
          else (a, ORaise IndexError)
      end
  | GetMask _ => (a, OMask (v_mask a))
  | SetMask _ v =>
      if mv_bool v then
        if list_eq_dec Nat.eq_dec (mv_shape v) [length (v_full a)]
        then (mkView (v_full a) (mv_data v) (S (v_gen a)) (v_env a), OUnit)
        else (a, ORaise ValueError)
      else (a, ORaise RuntimeError)
  | Fit _ (FitOk _ ms es bs) =>
      (mkView (zip3 ms es bs) (repeat true (length es)) (S (v_gen a)) (v_env a), OUnit)
  | Fitted _ => (a, OBool true)
  | _ => (a, OUnit)
  end.

Fixpoint view_run (a : view) (os : list (op V)) : view * list (out V) :=
  match os with
  | [] => (a, [])
  | o :: t => let '(a1, x) := view_step a o in
              let '(a2, xs) := view_run a1 t in (a2, x :: xs)
  end.

(** the view right after a fit *)
Definition view_init (ms es bs : list V) : view :=
  mkView (zip3 ms es bs) (repeat true (length es)) 0 [].


(** * Specification of a family of instances (C03, C04)

    One fitted instance and everything obtained from it by indexing, without
    in-place edits: a list of masks over one table of modes.  Instances do not
    influence each other. *)

(** Does position [i] (of [n]) belong to the Python key?  Defined by the usual
    reading of Python indexes, not by the model's mask construction. *)
Definition in_slice (n : nat) (s : pyslice) (i : nat) : Prop :=
  i < n /\
  exists t : nat,
    (Z.of_nat i = slice_lo n s + Z.of_nat t * slice_step s)%Z /\
    (if (0 <? slice_step s)%Z then (Z.of_nat i < slice_hi n s)%Z
     else (slice_hi n s < Z.of_nat i)%Z).

Definition denotes (n : nat) (z : Z) (i : nat) : Prop :=
  i < n /\ (z = Z.of_nat i \/ z = (Z.of_nat i - Z.of_nat n)%Z).

Definition key_selects (n : nat) (k : key) (i : nat) : Prop :=
  match k with
  | KInt z => denotes n z i
  | KBool b => b = true
  | KSl s => in_slice n s i
  | KList l =>
      (exists x, In x l /\ denotes n (elem_val x) i /\ ~ forall x, In x l -> elem_is_bool x = true)
      \/ ((forall x, In x l -> elem_is_bool x = true) /\ nth_error l i = Some (EBool true))
  | _ => False
  end.

Definition family := list (list bool).

Definition fam_op (o : op V) : Prop :=
  match o with
  | Get _ _ | GetMask _ | SetMask _ _ | GetItem _ _ | Fitted _ => True
  | _ => False
  end.

Definition table (ms es bs : list V) (k : kind) : list V :=
  match k with KModes => ms | KEigs => es | KAmps => bs end.

(** the mask of [dmd[k]] on [n] modes, or the exception *)
Definition fam_item (n : nat) (k : key) : result (list bool) :=
  match check_key k with Err x => Err x | Ok _ => key_mask n k end.

Definition fam_step (ms es bs : list V) (F : family) (o : op V) : family * out V :=
  let n := length es in
  match o with
  | Get i k => (F, match nth_error F i with
                   | Some m => OArr (sel m (table ms es bs k))
                   | None => ORaise NameError end)
  | GetMask i => (F, match nth_error F i with
                     | Some m => OMask m | None => ORaise NameError end)
  | Fitted i => (F, match nth_error F i with
                    | Some m => OBool true | None => ORaise NameError end)
  | SetMask i v =>
      match nth_error F i with
      | None => (F, ORaise NameError)
      | Some _ =>
          if mv_bool v then
            if list_eq_dec Nat.eq_dec (mv_shape v) [n]
            then (upd F i (mv_data v), OUnit) else (F, ORaise ValueError)
          else (F, ORaise RuntimeError)
      end
  | GetItem i k =>
      match nth_error F i with
      | None => (F, ORaise NameError)
      | Some _ => match fam_item n k with
                  | Ok m => (F ++ [m], OInst (length F))
                  | Err x => (F, ORaise x) end
      end
  | _ => (F, OUnit)
  end.

Fixpoint fam_run (ms es bs : list V) (F : family) (os : list (op V))
  : family * list (out V) :=
  match os with
  | [] => (F, [])
  | o :: t => let '(F1, x) := fam_step ms es bs F o in
              let '(F2, xs) := fam_run ms es bs F1 t in (F2, x :: xs)
  end.
End Spec.
Arguments mode : clear implicits.
Arguments view : clear implicits.

(** * Which histories C04 ranges over

    Any operations, except that an instance is not fitted again while another
    instance obtained from it by indexing (or from which it was obtained) still
    exists: those share the operator.  [Properties_Base.C04_refit_of_copy_is_private_refuted]
    shows what happens otherwise. *)
Definition alone {V} (w : world V) (i : nat) : Prop :=
  forall j s t, nth_error (insts w) i = Some s -> nth_error (insts w) j = Some t ->
    in_op s = in_op t -> i = j.

Definition fits_alone {V} (w : world V) (o : op V) : Prop :=
  match o with Fit i _ => alone w i | _ => True end.

Inductive reach {V} : world V -> Prop :=
| reach_empty : reach empty_world
| reach_step w o : reach w -> op_ok o -> fits_alone w o -> reach (fst (step w o)).

(** operations that keep the time dictionaries as DMDTimeDict with the three keys *)
Definition time_op_ok {V} (o : op V) : Prop :=
  match o with
  | TimeUpdate _ _ k _ => valid_key k = true
  | TimeDel _ _ _ => False
  | TimeAssign _ (Some D) => d_checked D = true /\ map fst (d_items D) = time_keys
  | _ => True
  end.

(** * Which keys [dmd[key]] accepts (C03) *)
Definition in_range (n : nat) (z : Z) : Prop := (- Z.of_nat n <= z < Z.of_nat n)%Z.

Definition is_int (x : kelem) : Prop := exists z, x = EInt z \/ exists b, x = EBool b.
Definition is_bool (x : kelem) : Prop := exists b, x = EBool b.

(** the right type: an int, a slice with non-zero step, a list of pairwise
    different ints, or an array without elements *)
Definition key_type_ok (k : key) : Prop :=
  match k with
  | KInt _ | KBool _ => True
  | KSl s => sl_step s <> Some 0%Z
  | KList l => Forall is_int l /\ NoDup (map elem_val l)
  | KArr size _ => size = 0
  | KBad => False
  end.

(** only existing positions; NumPy reads a non-empty list of booleans as a mask *)
Definition key_range_ok (n : nat) (k : key) : Prop :=
  match k with
  | KInt z => in_range n z
  | KList l => (l <> [] /\ Forall is_bool l /\ length l = n) \/
               (~ (l <> [] /\ Forall is_bool l) /\ Forall (fun x => in_range n (elem_val x)) l)
  | KArr _ int_dtype => int_dtype = true
  | _ => True
  end.

(** a fit that raises *)
Definition crash {V} (f : fit_run V) : Prop :=
  match f with FitOk _ _ _ _ => False | _ => True end.
Definition crash_exn {V} (f : fit_run V) : option exn :=
  match f with
  | FitOk _ _ _ _ => None
  | CSnap x => Some x | COper _ x => Some x | CEig _ _ x => Some x | CAmp _ _ _ x => Some x
  end.
