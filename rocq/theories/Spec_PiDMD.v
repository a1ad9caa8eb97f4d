(** * Vocabulary of C33: the matrix manifolds, best fits and the routines' contracts *)
From mathcomp Require Import all_ssreflect all_algebra.
From Verif Require Import Py LinAlg Model_Operator Spec_Operator Model_PiDMD.
Set Implicit Arguments. Unset Strict Implicit. Unset Printing Implicit Defensive.
Import GRing.Theory Num.Theory.
Local Open Scope ring_scope.

Section Spec.
Variable C : numClosedFieldType.
Implicit Types (np : numpy C) (pn : pi_numpy C).

(** ** The manifolds *)
Definition unitary n (A : 'M[C]_n) : Prop := adj A *m A = 1%:M.
Definition hermitian n (A : 'M[C]_n) : Prop := adj A = A.
Definition skew_hermitian n (A : 'M[C]_n) : Prop := adj A = - A.
Definition real_mx p q (M : 'M[C]_(p, q)) : Prop := forall i j, M i j \is Num.real.
Definition upper_triangular n (A : 'M[C]_n) : Prop := forall i j : 'I_n, (j < i)%N -> A i j = 0.
Definition lower_triangular n (A : 'M[C]_n) : Prop := forall i j : 'I_n, (i < j)%N -> A i j = 0.
(** row i reaches less than [(w i).1] places to the left and less than [(w i).2] places to the right of the diagonal *)
Definition banded n (w : 'I_n -> nat * nat) (A : 'M[C]_n) : Prop :=
  forall i j : 'I_n, A i j != 0 -> (i < j + (w i).1)%N /\ (j < i + (w i).2)%N.
(** entries depend on i - j only *)
Definition is_toeplitz n (A : 'M[C]_n) : Prop :=
  forall i j i' j' : 'I_n, (i + j' = i' + j)%N -> A i j = A i' j'.
(** entries depend on i + j only *)
Definition is_hankel n (A : 'M[C]_n) : Prop :=
  forall i j i' j' : 'I_n, (i + j = i' + j')%N -> A i j = A i' j'.
(** entries depend on i - j modulo n only *)
Definition is_circulant n (A : 'M[C]_n) : Prop :=
  forall i j i' j' : 'I_n, (i + j' = i' + j %[mod n])%N -> A i j = A i' j'.
Definition sym_tridiagonal n (A : 'M[C]_n) : Prop :=
  [/\ real_mx A, A^T = A & forall i j : 'I_n, (i + 1 < j)%N || (j + 1 < i)%N -> A i j = 0].
(** q by q blocks of size p by p; position a is row [a mod p] of block [a div p].
    Entries depend on the place inside the block and on the difference of the block numbers modulo q *)
Definition is_block_circulant n (p q : nat) (A : 'M[C]_n) : Prop :=
  forall a b a' b' : 'I_n, (a %% p = a' %% p)%N -> (b %% p = b' %% p)%N ->
    (a %/ p + b' %/ p = a' %/ p + b %/ p %[mod q])%N -> A a b = A a' b'.
(** ... with circulant blocks *)
Definition is_bccb n (p q : nat) (A : 'M[C]_n) : Prop :=
  forall a b a' b' : 'I_n, (a %% p + b' %% p = a' %% p + b %% p %[mod p])%N ->
    (a %/ p + b' %/ p = a' %/ p + b %/ p %[mod q])%N -> A a b = A a' b'.
(** ... with tridiagonal blocks *)
Definition tridiagonal_blocks n (p : nat) (A : 'M[C]_n) : Prop :=
  forall a b : 'I_n, (a %% p + 1 < b %% p)%N || (b %% p + 1 < a %% p)%N -> A a b = 0.
Definition opt_holds (o : circ_opt) n (A : 'M[C]_n) : Prop :=
  match o with CFree => True | CUnitary => unitary A | CSymmetric => hermitian A | CSkew => skew_hermitian A end.

(** A has the property P and no matrix with that property comes closer to Y = A X *)
Definition best n m (P : 'M[C]_n -> Prop) (X Y : 'M[C]_(n, m)) (A : 'M[C]_n) : Prop :=
  P A /\ forall B, P B -> frob2 (Y - A *m X) <= frob2 (Y - B *m X).

(** ** Contracts of the calls *)
Definition rq_ok pn n m (X : 'M[C]_(n, m)) : Prop :=
  let: (R, Q) := pi_rq pn X in
  [/\ X = R *m Q, Q *m adj Q = 1%:M & forall (i : 'I_n) (j : 'I_(minn n m)), (j + (n - minn n m) < i)%N -> R i j = 0].
Definition root_ok pn (N : nat) : Prop := N.-primitive_root (pi_root pn N).
Definition lsqr_ok pn n (T : 'M[C]_n) (d : 'cV[C]_n) : Prop := is_lstsq T d (pi_lsqr pn T d) /\ real_mx (pi_lsqr pn T d).
Definition smallest_ok pn n (res : 'rV[C]_n) (k : nat) : Prop :=
  #|pi_smallest pn res k| = k /\
  forall i j, i \in pi_smallest pn res k -> j \notin pi_smallest pn res k -> res 0 i <= res 0 j.
Definition eigs_ok pn n r (A : 'M[C]_n) : Prop := A *m (pi_eigs pn r A).2 = (pi_eigs pn r A).2 *m diag_mx (pi_eigs pn r A).1.
(** least squares with several right-hand sides *)
Definition lstsq_mx_ok np n r p (M : 'M[C]_(n, r)) (Y : 'M[C]_(n, p)) : Prop := forall j, lstsq_ok np M (col j Y).
(** the solves of block j in the block circulant fits; [tri] for tridiagonal blocks, solved row by row *)
Definition bc_solves_ok np n m (p : nat) (tri : bool) (FX FY : 'M[C]_(n, m)) (j : nat) : Prop :=
  if tri then forall i : 'I_p,
    lstsq_ok np (row_slice (block_slice p FX j) (band_l1 (2, 2)%N i) (band_l2 p (2, 2)%N i))^T (row i (block_slice p FY j))^T
  else lstsq_mx_ok np (block_slice p FX j)^T (block_slice p FY j)^T.
(** numpy.linalg.lstsq returns the solution of least norm: it lies in the row space *)
Definition min_norm np n r (M : 'M[C]_(n, r)) (y : 'cV[C]_n) : Prop := exists z, np_lstsq np M y = adj M *m z.
End Spec.
