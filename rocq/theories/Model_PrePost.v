(** * Model of pydmd/preprocessing/pre_post_processing.py: PrePostProcessingDMD

    Python values (arrays and the other arguments of fit) are an abstract type
    [V]; the states that pre-processing saves are of type [St]; the wrapped DMD
    is an object with state [B] whose methods are given by [base_ops].  Nothing
    is assumed about any of them.  Threads are not modelled. *)
From Coq Require Import List ZArith Lia Bool Arith String.
From Verif Require Import Py.
Import ListNotations.
Local Open Scope string_scope.
Local Notation length := List.length.

Section Wrap.
Context (V St B : Type).

(** a PrePostProcessing instance (pre_post_processing.py:18-27) *)
Record pp := mkPP { pp_pre : V -> result (St * V); pp_post : option St -> V -> result V }.

(** what the attribute reconstructed_data of an instance is: an array
    (property) or a routine (DMDc: a method with arguments). preprocessing/pre_post_processing.py:93, 113 *)
Definition kwargs := list (string * V).
(** preprocessing/pre_post_processing.py:104-119 *)
Inductive recval := RData (r : result V) | RFun (f : list V -> kwargs -> result V).

(** the wrapped DMD: fit and attribute assignment may change its state before
    they raise; fit returns self. Used at preprocessing/pre_post_processing.py:72, 91, 101, 104 *)
Record base_ops := mkBase {
  b_fit : list V -> kwargs -> B -> B * result unit;
  b_rec : B -> recval;
  b_get : B -> string -> result V;
  b_set : B -> string -> V -> B * result unit }.
Context (ops : base_ops).

(** a DMD, or a wrapper around a DMD or around another wrapper
    (pre_post_processing.py:45-55: _pre_post_processing, _pre_processing_output,
    the other entries of the instance dictionary, _dmd) *)
Inductive obj := OBase (b : B) | OWrap (p : pp) (out : option St) (dict : kwargs) (inner : obj).

(** __init__ (45-55); None is refused *)
Definition wrap (dmd : option obj) (p : pp) : result obj :=
  match dmd with None => Err ValueError | Some o => Ok (OWrap p None [] o) end.

(** preprocessing/pre_post_processing.py:125-126 *)
Fixpoint lookup (k : string) (d : kwargs) : option V :=
  match d with [] => None | (k', v) :: r => if String.eqb k k' then Some v else lookup k r end.
(** d[k] = v on a dictionary: replaced in place, or added at the end. preprocessing/pre_post_processing.py:139 *)
Fixpoint assign (k : string) (v : V) (d : kwargs) : kwargs :=
  match d with
  | [] => [(k, v)]
  | (k', v') :: r => if String.eqb k k' then (k, v) :: r else (k', v') :: assign k v r
  end.

(** _extract_training_data (121-129) *)
Definition extract (args : list V) (kw : kwargs) : result V :=
  match args with
  | x :: _ => Ok x
  | [] => match lookup "X" kw with Some x => Ok x | None => Err ValueError end
  end.
(** _replace_training_data (131-143) *)
Definition replace (x : V) (args : list V) (kw : kwargs) : list V * kwargs :=
  match args with
  | _ :: r => (x :: r, kw)
  | [] => match lookup "X" kw with Some _ => (args, assign "X" x kw) | None => (args, kw) end
  end.

(** fit (64-65 and 93-101).  The value returned is an object: the number of
    wrappers between the object fitted and the object returned. *)
Fixpoint call_fit (o : obj) (args : list V) (kw : kwargs) : obj * result nat :=
  match o with
  | OBase b => let '(b', r) := b_fit ops args kw b in
               (OBase b', match r with Ok _ => Ok 0 | Err e => Err e end)
  | OWrap p out dict inner =>
      match extract args kw with
      | Err e => (o, Err e)
      | Ok x =>
          match pp_pre p x with
          | Err e => (o, Err e)
          | Ok (s, x') =>
              let '(args', kw') := replace x' args kw in
              let '(inner', r) := call_fit inner args' kw' in
              (OWrap p (Some s) dict inner', match r with Ok n => Ok (S n) | Err e => Err e end)
          end
      end
  end.

(** reconstructed_data (67-68 and 103-119) *)
Fixpoint reconstructed (o : obj) : recval :=
  match o with
  | OBase b => b_rec ops b
  | OWrap p out _ inner =>
      match reconstructed inner with
      | RData r => RData (let! y := r in pp_post p out y)
      | RFun f => RFun (fun a k => let! y := f a k in pp_post p out y)
      end
  end.

(** the attributes object.__getattribute__ finds on the wrapper itself, apart
    from the entries of its dictionary (class attributes and methods). preprocessing/pre_post_processing.py:43-140 *)
Definition own_names : list string :=
  ["_pre_post_processing"; "_pre_processing_output"; "_dmd"; "pre_post_processed_dmd";
   "modes_activation_bitmask"; "_pre_processing_fit"; "_reconstructed_data_with_post_processing";
   "_extract_training_data"; "_replace_training_data"].
(** preprocessing/pre_post_processing.py:57 *)
Definition own (name : string) : bool := existsb (String.eqb name) own_names.

(** __getattribute__ (57-76) for attributes other than fit,
    reconstructed_data and the wrapper's own ones *)
Fixpoint getattr (o : obj) (name : string) : result V :=
  match o with
  | OBase b => b_get ops b name
  | OWrap _ _ dict inner =>
      match lookup name dict with Some v => Ok v | None => getattr inner name end
  end.

(** modes_activation_bitmask (87-91): getter and setter go to the inner
    instance, through every wrapper *)
Fixpoint get_bitmask (o : obj) : result V :=
  match o with
  | OBase b => b_get ops b "modes_activation_bitmask"
  | OWrap _ _ _ inner => get_bitmask inner
  end.
(** attribute assignment: object.__setattr__, which for everything but the
    property writes the dictionary of the outermost wrapper. preprocessing/pre_post_processing.py:89-91 *)
Fixpoint set_bitmask (o : obj) (v : V) : obj * result unit :=
  match o with
  | OBase b => let '(b', r) := b_set ops b "modes_activation_bitmask" v in (OBase b', r)
  | OWrap p out dict inner => let '(inner', r) := set_bitmask inner v in (OWrap p out dict inner', r)
  end.
(** preprocessing/pre_post_processing.py:28-140, which defines no __setattr__ *)
Definition setattr (o : obj) (name : string) (v : V) : obj * result unit :=
  match o with
  | OBase b => let '(b', r) := b_set ops b name v in (OBase b', r)
  | OWrap p out dict inner =>
      if String.eqb name "modes_activation_bitmask" then set_bitmask o v
      else if String.eqb name "pre_post_processed_dmd" then (o, Err AttributeError)
      else (OWrap p out (assign name v dict) inner, Ok tt)
  end.

(** pre_post_processed_dmd (78-85) *)
Definition inner_dmd (o : obj) : option obj :=
  match o with OBase _ => None | OWrap _ _ _ i => Some i end.
End Wrap.
Arguments mkPP {V St}. Arguments pp_pre {V St}. Arguments pp_post {V St}.
Arguments mkBase {V B}. Arguments b_fit {V B}. Arguments b_rec {V B}. Arguments b_get {V B}. Arguments b_set {V B}.
Arguments OBase {V St B}. Arguments OWrap {V St B}.
Arguments call_fit {V St B}. Arguments reconstructed {V St B}. Arguments getattr {V St B}.
Arguments setattr {V St B}. Arguments get_bitmask {V St B}. Arguments set_bitmask {V St B}.
Arguments wrap {V St B}. Arguments inner_dmd {V St B}. Arguments RData {V}. Arguments RFun {V}.
Arguments extract {V}. Arguments replace {V}. Arguments lookup {V}. Arguments assign {V}.
