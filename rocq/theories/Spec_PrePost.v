(** * Specification vocabulary for C26 *)
From Coq Require Import List ZArith Lia Bool Arith String.
From Verif Require Import Py Model_PrePost.
Import ListNotations.
Local Open Scope string_scope.

Section Spec.
Context {V St B : Type}.
Notation obj := (obj V St B).
Notation pp := (pp V St).

(** the wrappers of an object, outermost first; their saved states; their own
    dictionaries; the wrapped DMD *)
Fixpoint layers (o : obj) : list pp :=
  match o with OBase _ => [] | OWrap p _ _ i => p :: layers i end.
Fixpoint saved (o : obj) : list (option St) :=
  match o with OBase _ => [] | OWrap _ s _ i => s :: saved i end.
Fixpoint dicts (o : obj) : list (kwargs V) :=
  match o with OBase _ => [] | OWrap _ _ d i => d :: dicts i end.
Fixpoint innermost (o : obj) : B :=
  match o with OBase b => b | OWrap _ _ _ i => innermost i end.

(** pre-processing, outside-in: the states saved and the data for the DMD *)
Fixpoint pre_chain (ps : list pp) (x : V) : result (list St * V) :=
  match ps with
  | [] => Ok ([], x)
  | p :: r => let! q := pp_pre p x in
              let! q' := pre_chain r (snd q) in
              Ok (fst q :: fst q', snd q')
  end.
(** post-processing, inside-out *)
Fixpoint post_chain (ps : list pp) (ss : list (option St)) (y : V) : result V :=
  match ps, ss with
  | p :: r, s :: t => let! y' := post_chain r t y in pp_post p s y'
  | _, _ => Ok y
  end.
(** ... of an attribute that is an array or a routine *)
Definition post_rec (f : V -> result V) (r : recval V) : recval V :=
  match r with
  | RData v => RData (let! y := v in f y)
  | RFun g => RFun (fun a k => let! y := g a k in f y)
  end.
(** equality of such attributes: routines are compared on all arguments *)
Definition same_rec (r r' : recval V) : Prop :=
  match r, r' with
  | RData v, RData v' => v = v'
  | RFun g, RFun g' => forall a k, g a k = g' a k
  | _, _ => False
  end.

(** [(args', kw')] is [(args, kw)] with the training data x replaced by y *)
Definition retargeted (args : list V) (kw : kwargs V) (x y : V) (args' : list V) (kw' : kwargs V) : Prop :=
  (exists rest, args = x :: rest /\ args' = y :: rest /\ kw' = kw) \/
  (args = [] /\ args' = [] /\ lookup "X" kw = Some x /\ lookup "X" kw' = Some y /\
   map fst kw' = map fst kw /\ forall k, k <> "X" -> lookup k kw' = lookup k kw).

(** each step of post-processing undoes its pre-processing on the data it gets *)
Fixpoint inverts (ps : list pp) (x : V) : Prop :=
  match ps with
  | [] => True
  | p :: r => exists s x', pp_pre p x = Ok (s, x') /\ pp_post p (Some s) x' = Ok x /\ inverts r x'
  end.

(** what a user does with the object: fit, set an attribute, set the mask *)
Inductive action := AFit (args : list V) (kw : kwargs V) | ASet (name : string) (v : V) | AMask (v : V).
Definition is_fit (a : action) : bool := match a with AFit _ _ => true | _ => false end.
Definition act (ops : base_ops V B) (o : obj) (a : action) : obj :=
  match a with
  | AFit args kw => fst (call_fit ops o args kw)
  | ASet n v => fst (setattr ops o n v)
  | AMask v => fst (set_bitmask ops o v)
  end.
Definition history (ops : base_ops V B) (o : obj) (l : list action) : obj := fold_left (act ops) l o.
End Spec.
