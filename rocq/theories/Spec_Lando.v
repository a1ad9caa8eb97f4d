(** * Specification vocabulary for LANDO *)
From mathcomp Require Import all_ssreflect all_algebra.
From Verif Require Import Py LinAlg Model_Operator Spec_Operator.
Set Implicit Arguments. Unset Strict Implicit. Unset Printing Implicit Defensive.
Import GRing.Theory Num.Theory.
Local Open Scope ring_scope.

Section Spec.
Variables (C : numClosedFieldType) (n : nat).
Implicit Types (k : 'cV[C]_n -> 'cV[C]_n -> C) (x y : 'cV[C]_n).

(** a matrix of real numbers *)
Definition realm a b (M : 'M[C]_(a, b)) : Prop := forall i j, M i j \is Num.real.
(** the kernel matrix of two lists of vectors, given by columns *)
Definition kernels k a b (A : 'M[C]_(n, a)) (B : 'M[C]_(n, b)) : 'M[C]_(a, b) := \matrix_(i, j) k (col i A) (col j B).
(** the squared norm, in the feature space, of the combination with coefficients [c] of the vectors [D] *)
Definition knorm2 k m (D : 'M[C]_(n, m)) (c : 'cV[C]_m) : C := (adj c *m kernels k D D *m c) 0 0.
(** a kernel that is real, symmetric and positive on real vectors *)
Record pos_kernel k : Prop := PosKernel {
  pk_real : forall x y, realm x -> realm y -> k x y \is Num.real;
  pk_sym : forall x y, realm x -> realm y -> k y x = k x y;
  pk_pos : forall m (D : 'M[C]_(n, m)) c, realm D -> 0 <= knorm2 k D c }.
(** for example the scalar product of finitely many real features *)
Definition feature_kernel p k (phi : 'cV[C]_n -> 'cV[C]_p) : Prop :=
  (forall x, realm x -> realm (phi x)) /\ forall x y, k x y = ((phi x)^T *m phi y) 0 0.

(** the squared distance, in the feature space, of [x] from the combination of [D] with coefficients [c] *)
Definition apart k m (D : 'M[C]_(n, m)) x (c : 'cV[C]_m) : C := knorm2 k (row_mx D x) (col_mx (- c) 1%:M).
(** [delta] is the squared distance of [x] from the span of [D] *)
Definition is_dist2 k m (D : 'M[C]_(n, m)) x (delta : C) : Prop :=
  (exists c, apart k D x c = delta) /\ forall c, delta <= apart k D x c.

(** vectors as the columns of a matrix *)
Definition cols (l : seq 'cV[C]_n) : 'M[C]_(n, size l) := \matrix_(i, j) nth 0 l j i 0.
(** Dictionary learning: the first vector is taken; each following one exactly when its squared distance from the
    span of those taken so far is more than [tol]. *)
Inductive learns k (tol : C) : seq 'cV[C]_n -> seq 'cV[C]_n -> Prop :=
| L_first x : learns k tol [:: x] [:: x]
| L_take xs D x delta : learns k tol xs D -> is_dist2 k (cols D) x delta -> tol < delta -> learns k tol (rcons xs x) (rcons D x)
| L_skip xs D x delta : learns k tol xs D -> is_dist2 k (cols D) x delta -> delta <= tol -> learns k tol (rcons xs x) D.

(** The same with the coefficients of each vector: its own place when it is taken, else the coefficients of the
    nearest combination of those taken so far.  A coefficient vector is a function that is 0 from some place on. *)
Definition place (j : nat) : nat -> C := fun i => (i == j)%:R.
Definition coeffs m (c : 'cV[C]_m) : nat -> C := fun i => if insub i is Some i' then c i' 0 else 0.
Inductive coded k (tol : C) : seq 'cV[C]_n -> seq 'cV[C]_n -> seq (nat -> C) -> Prop :=
| D_first x : coded k tol [:: x] [:: x] [:: place 0]
| D_take xs D cs x delta : coded k tol xs D cs -> is_dist2 k (cols D) x delta -> tol < delta ->
    coded k tol (rcons xs x) (rcons D x) (rcons cs (place (size D)))
| D_skip xs D cs x delta c : coded k tol xs D cs -> is_dist2 k (cols D) x delta -> delta <= tol ->
    apart k (cols D) x c = delta -> coded k tol (rcons xs x) D (rcons cs (coeffs c)).
(** the first [m] coefficients *)
Definition cvec m (c : nat -> C) : 'cV[C]_m := \col_i c i.
(** the error of the weights [V] on the targets [ys] when each snapshot is replaced by its combination *)
Definition coded_error k m (D : 'M[C]_(n, m)) (V : 'M[C]_(n, m)) (ys : seq 'cV[C]_n) (cs : seq (nat -> C)) : C :=
  \sum_(p <- zip ys cs) frob2 (p.1 - V *m kernels k D D *m cvec m p.2).
(** the error of the weights [V] on the targets *)
Definition data_error k m (D : 'M[C]_(n, m)) (V : 'M[C]_(n, m)) (xs ys : seq 'cV[C]_n) : C :=
  \sum_(p <- zip xs ys) frob2 (p.2 - V *m kernels k D p.1).
End Spec.
