(** * What C46 talks about *)
From Coq Require Import QArith String Ascii.
From mathcomp Require Import all_ssreflect all_fingroup all_algebra.
From Verif Require Import Py Model_CostsWin Model_Costs Model_CostsIO.
Set Implicit Arguments. Unset Strict Implicit. Unset Printing Implicit Defensive.

(** what becomes of the value [v] of a keyword: a keyword other than eig_constraints *)
Inductive comes_back : pyval -> pyval -> Prop :=
| BackSame v : (forall l, v <> VSet l) -> (forall f, v <> VFun f) -> v <> VStr "None" -> comes_back v v
| BackNone : comes_back (VStr "None") VNone
| BackList l : comes_back (VSet l) (VList l)
| BackText s : comes_back (VFun (Some s)) (VStr ("Custom function " ++ s)).
(** and of the value of eig_constraints *)
Inductive constraints_back : pyval -> pyval -> Prop :=
| ConSet l : constraints_back (VSet l) (VSet l)
| ConList l : constraints_back (VList l) (VSet l)
| ConTuple l : constraints_back (VTuple l) (VSet l)
| ConText s : s <> "None"%string -> constraints_back (VStr s) (VSet (chars s))
| ConFun s : constraints_back (VFun (Some s)) (VSet (chars ("Custom function " ++ s))).

(** what a netCDF attribute cannot hold: None, a set, a callable (the reason given at costs.py:1573) *)
Definition file_value (v : pyval) : bool := match v with VNone | VSet _ | VFun _ => false | _ => true end.

(** everything the reconstructions and the global clustering read *)
Record same_results (C : numClosedFieldType) n (c c' : costs C n) : Prop := SameResults {
  sr_fit : c_fit c' = c_fit c; sr_bands : c_bands c' = c_bands c; sr_win : c_win c' = c_win c;
  sr_rank : cc_rank (c_cfg c') = cc_rank (c_cfg c); sr_global : cc_global (c_cfg c') = cc_global (c_cfg c) }.

(** [o'] is [o] come back: the results, the transformation, and every keyword under its own name *)
Record restored_as (C : numClosedFieldType) n (o o' : obj C n) : Prop := RestoredAs {
  ra_results : same_results (ob_c o) (ob_c o');
  ra_trans : comes_back (ob_trans o) (ob_trans o');
  ra_keys : List.map fst (ob_kw o') = List.map fst (ob_kw o);
  ra_kw : forall k v, List.In (k, v) (ob_kw o) -> exists u, List.In (k, u) (ob_kw o') /\
    (if String.eqb k "eig_constraints" then constraints_back v u else comes_back v u) }.

(** Python integers *)
Lemma Zeqb_axiom : Equality.axiom BinInt.Z.eqb.
Proof. by move=> a b; apply: (iffP idP) => [/BinInt.Z.eqb_eq|/BinInt.Z.eqb_eq]. Qed.
Canonical Z_eqType := EqType BinNums.Z (EqMixin Zeqb_axiom).
(** the window length of a level *)
Definition level_length (C : numClosedFieldType) n (o : obj C n) : BinNums.Z := odflt BinNums.Z0 (w_length (c_win (ob_c o))).
