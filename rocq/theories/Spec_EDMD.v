(** * Specification vocabulary for EDMD *)
From mathcomp Require Import all_ssreflect all_algebra.
From Verif Require Import Py LinAlg Model_Operator Spec_Operator Model_EDMD.
Set Implicit Arguments. Unset Strict Implicit. Unset Printing Implicit Defensive.
Import GRing.Theory Num.Theory.
Local Open Scope ring_scope.

Section Spec.
Variable C : numClosedFieldType.

(** np.linalg.eig on a real symmetric matrix: real unit eigenvectors that form a basis.  Those of different
    eigenvalues are orthogonal by themselves; those of a repeated non-zero eigenvalue are assumed orthogonal. *)
Definition eig_sym_ok (np : numpy C) k (G : 'M[C]_k) : Prop :=
  let w := (np_eig np G).1 in let W := (np_eig np G).2 in
  [/\ is_eig G w W, real_mx W, W \in unitmx &
      forall i j, i != j -> w 0 i = w 0 j -> w 0 i != 0 -> (W^T *m W) i j = 0].

(** the kernel is the scalar product of real features *)
Definition feature_kernel n p (kernel : 'cV[C]_n -> 'cV[C]_n -> C) (phi : 'cV[C]_n -> 'cV[C]_p) : Prop :=
  (forall x, real_mx x -> real_mx (phi x)) /\ forall x y, kernel x y = ((phi x)^T *m phi y) 0 0.
(** the features of the snapshots, one per column *)
Definition features n p m (phi : 'cV[C]_n -> 'cV[C]_p) (X : 'M[C]_(n, m)) : 'M[C]_(p, m) := \matrix_(i, j) phi (col j X) i 0.

(** [idx] lists, in order, exactly the positions satisfying [P] *)
Definition selects r k (P : pred 'I_r) (idx : 'I_k -> 'I_r) : Prop :=
  (forall i j : 'I_k, (i < j)%N -> (idx i < idx j)%N) /\ forall l, P l <-> exists j, idx j = l.
End Spec.
