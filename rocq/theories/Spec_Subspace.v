(** * Contracts of the calls made by SubspaceDMD, and the vocabulary of C51 *)
From Coq Require Import QArith.
From mathcomp Require Import all_ssreflect all_algebra.
From Verif Require Import Py LinAlg Model_Operator Spec_Operator Model_Subspace.
From Verif Require Model_Utils.
Set Implicit Arguments. Unset Strict Implicit. Unset Printing Implicit Defensive.
Import GRing.Theory Num.Theory.
Local Open Scope ring_scope.

Section Spec.
Variable C : numClosedFieldType.
Variables (np : numpy C) (mrank : forall n m, 'M[C]_(n, m) -> 'I_(minn n m).+1).

(** np.linalg.svd and np.linalg.matrix_rank do what they promise for [X] *)
Definition svd_rank_ok n m (X : 'M[C]_(n, m)) : Prop := svd_ok np X /\ mrank X = \rank X :> nat.

(** snapshots j, j+1 on top of each other (the past), and j+2, j+3 (the future), in column j *)
Definition past n m (S : 'M[C]_(n, m.+4)) : 'M[C]_(n + n, m.+1) := \matrix_(i, j)
  match split i with inl i' => S i' (inord j) | inr i' => S i' (inord j.+1) end.
Definition future n m (S : 'M[C]_(n, m.+4)) : 'M[C]_(n + n, m.+1) := \matrix_(i, j)
  match split i with inl i' => S i' (inord j.+2) | inr i' => S i' (inord j.+3) end.

(** the future restricted to the row space of the past *)
Definition projected n m (S : 'M[C]_(n, m.+4)) : 'M[C]_(n + n, m.+1) :=
  let V := sv_V (reducedsvd np mrank (past S)) in future S *m V *m adj V.

(** a successful fit whose calls met their contracts *)
Record sub_fitted (cfg : sub_cfg C) n m (S : 'M[C]_(n, m.+4)) (f : sub_fit C n) : Prop := {
  sub_run : fit_subspace np mrank cfg S = Ok f;
  sub_past : svd_rank_ok (past S);
  sub_proj : svd_rank_ok (projected S);
  sub_half : svd_rank_ok (usubmx (so_Uq (sf_out f)));
  sub_rs : rescale_ok (sc_rescale cfg);
  sub_eig : forall Ah, ahat (sc_rescale cfg) (of_Atilde (so_op (sf_out f))) = Ok Ah -> eig_ok np Ah }.

(** svd_rank does not discard anything *)
Definition keeps_all (n : nat) (rk : Model_Utils.rank_arg) : Prop :=
  match rk with
  | Model_Utils.RInt z => BinInt.Z.le z BinNums.Z0 \/ BinInt.Z.le (BinInt.Z.of_nat n) z
  | Model_Utils.RNum q => Qle q (inject_Z BinNums.Z0) \/ Qle (inject_Z (BinInt.Z.of_nat n)) q
  end.

(** snapshots 2, ..., T-2 *)
Definition middle n m (S : 'M[C]_(n, m.+4)) : 'M[C]_(n, m.+1) := \matrix_(i, j) S i (inord j.+2).
End Spec.
