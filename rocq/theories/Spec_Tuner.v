(** * Specification vocabulary for the modes tuner (C27-C30)

    Written in terms of one mode at a time; nothing here refers to the way the
    tuner computes. *)
From Coq Require Import ZArith.
From mathcomp Require Import all_ssreflect all_algebra.
From Verif Require Import Py Model_Base Spec_Base Model_Tuner.

Set Implicit Arguments.
Unset Strict Implicit.
Unset Printing Implicit Defensive.
Import GRing.Theory Num.Theory.
Local Open Scope ring_scope.

Section Spec.
Variable C : numClosedFieldType.
Implicit Types (d : dmd C) (z : C) (x : ext C).

(** every mode has a bit *)
Definition sane d := size (d_mask d) = size (d_full d).

(** the criterion looks at the instance, does not change it, and answers [c] *)
Definition answers (f : criterion C) d (c : seq bool) := f d = (d, Ok c).

(** two instances that differ at most in the mask *)
Definition same_but_mask d d' :=
  [/\ d_full d' = d_full d, d_ot d' = d_ot d & d_dt d' = d_dt d].

(** order on radii *)
Definition below x (a : C) : Prop := match x with Fin y => y < a | NInf => True | PInf => False end.
Definition above x (a : C) : Prop := match x with Fin y => a < y | PInf => True | NInf => False end.

(** distance to the unit circle of an eigenvalue inside / outside it *)
Definition within_inside x z := match x with Fin y => `|z| < 1 -> 1 - `|z| < y | PInf => True | NInf => False end.
Definition within_outside x z := match x with Fin y => 1 < `|z| -> `|z| - 1 < y | PInf => True | NInf => False end.

(** a distance given to stable_modes: the first argument stands for both *)
Definition distance (both x : option (ext C)) : ext C :=
  if both is Some t then t else odflt PInf x.
Definition positive x : Prop := match x with Fin y => 0 < y | PInf => True | NInf => False end.
Definition bounded (x : option (ext C)) : Prop := exists2 t, x = Some t & t <> PInf.

(** a mode with numeric eigenvalue and amplitude *)
Definition numeric (r : mode (entry C)) := exists z b, m_lam r = Val z /\ m_amp r = Val b.
Definition lam (r : mode (entry C)) : C := num (m_lam r).
Definition amp (r : mode (entry C)) : C := num (m_amp r).

(** what stabilisation does to one mode *)
Definition stabilized (r r' : mode (entry C)) :=
  [/\ m_phi r' = m_phi r, m_lam r' = Val (lam r / `|lam r|) & m_amp r' = Val (amp r * `|lam r|)].
Definition in_sector (lo hi : ext C) (r : mode (entry C)) :=
  below lo `|lam r| /\ above hi `|lam r|.

(** the instance [r] is never handed to a tuner that works in place *)
Definition not_given (r : nat) (c : cmd C) :=
  match c with New a true => r \notin refs_of a | _ => true end.

(** the integral of one mode over the original window *)
Definition integral d (r : mode (entry C)) : C :=
  (\sum_(y <- col (m_phi r)) `|y| ^+ 2) * \sum_(k <- d_ot d) `|lam r ^ k * amp r|.

(** contract of argsort at one call: a permutation of the positions along
    which the values do not decrease *)
Definition sorts (cs : seq C) (p : seq nat) :=
  perm_eq p (iota 0 (size cs)) /\ sorted (fun i j => nth 0 cs i <= nth 0 cs j) p.

(** contract of the enumeration of a set *)
Definition enumerates (setlist : seq nat -> seq nat) := forall l, perm_eq (setlist l) l.

End Spec.
