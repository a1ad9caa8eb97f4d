(** * Model of preprocessing/zero_mean.py, svd_projection.py, randomized.py and
      compute_rqb (utils.py)

    Matrices over a closed numeric field, exact arithmetic.  The wrapper that
    applies these steps is Model_PrePost. *)
From mathcomp Require Import all_ssreflect all_algebra.
From Verif Require Import Py LinAlg Model_Operator.
From Verif Require Model_Utils.
Set Implicit Arguments. Unset Strict Implicit. Unset Printing Implicit Defensive.
Import GRing.Theory Num.Theory.
Local Open Scope ring_scope.

Section Model.
Variable C : numClosedFieldType.

(** ** zero mean (zero_mean.py:36-57)

    np.average(X, axis=.., keepdims=True), broadcast back to the shape of X; the
    axis is the whole array (default), 0 or 1.  Weights are not modelled. *)
Inductive axis := AxAll | Ax0 | Ax1.
(** preprocessing/zero_mean.py:44 *)
Definition average (ax : axis) n m (X : 'M[C]_(n, m)) : 'M[C]_(n, m) :=
  match ax with
  | AxAll => const_mx ((\sum_i \sum_j X i j) / (n * m)%:R)
  | Ax0 => \matrix_(i, j) ((\sum_k X k j) / n%:R)
  | Ax1 => \matrix_(i, j) ((\sum_k X i k) / m%:R)
  end.
(** preprocessing/zero_mean.py:41-45 *)
Definition zero_mean_pre (ax : axis) n m (X : 'M[C]_(n, m)) : 'M[C]_(n, m) * 'M[C]_(n, m) :=
  let mean := average ax X in (mean, X - mean).
(** preprocessing/zero_mean.py:48-51 *)
Definition zero_mean_post n m (mean Y : 'M[C]_(n, m)) : 'M[C]_(n, m) := Y + mean.

(** ** SVD projection (svd_projection.py:37-64)

    [.T] is the transpose without conjugation. *)
Definition svd_proj_pre (np : numpy C) (rk : Model_Utils.rank_arg) n m (X : 'M[C]_(n, m)) :
    {r & ('M[C]_(n, r) * 'M[C]_(r, m))%type} :=
  let rk' := if n == 1%N then Model_Utils.RInt (BinNums.Zneg BinNums.xH) else rk in
  let o := compute_svd np X rk' in
  existT _ (sv_r o) (sv_U o, (sv_U o)^T *m X).
(** preprocessing/svd_projection.py:58-64 *)
Definition svd_proj_post n r p (U : 'M[C]_(n, r)) (Y : 'M[C]_(r, p)) : 'M[C]_(n, p) := U *m Y.

(** ** compute_rqb (utils.py:194-268)

    [qr] is np.linalg.qr(.)[0]; [Omega] the test matrix, given or drawn at
    random (lines 245-249).  The width of the sketch never changes the number
    of rows; a matrix with its width is a dependent pair. *)
Definition qr_fun := forall n k, 'M[C]_(n, k) -> 'M[C]_(n, minn n k).
(** The matrices of utils.py:254-263 *)
Definition sketch n := {k & 'M[C]_(n, k)}.
(** utils.py:258-260 *)
Definition power_iter (qr : qr_fun) n m (X : 'M[C]_(n, m)) (Y : sketch n) : sketch n :=
  let Q := qr _ _ (projT2 Y) in
  let Z := qr _ _ (adj X *m Q) in
  existT _ _ (X *m Z).
(** utils.py:254-260 *)
Definition rqb_sketch (qr : qr_fun) n m l (X : 'M[C]_(n, m)) (Omega : 'M[C]_(m, l)) (iters : nat) : sketch n :=
  iter iters (power_iter qr X) (existT _ l (X *m Omega)).
(** utils.py:254-263 *)
Definition rqb_Q (qr : qr_fun) n m l (X : 'M[C]_(n, m)) (Omega : 'M[C]_(m, l)) (iters : nat) : sketch n :=
  let Y := rqb_sketch qr X Omega iters in existT _ _ (qr _ _ (projT2 Y)).

(** ** randomized pre-processing (randomized.py:53-69) *)
Definition rand_pre (qr : qr_fun) n m l (X : 'M[C]_(n, m)) (Omega : 'M[C]_(m, l)) (iters : nat) :
    {r & ('M[C]_(r, n) * 'M[C]_(r, m))%type} :=
  let Q := rqb_Q qr X Omega iters in
  let comp := adj (projT2 Q) in existT _ _ (comp, comp *m X).
(** preprocessing/randomized.py:64-69 *)
Definition rand_post n r p (comp : 'M[C]_(r, n)) (Y : 'M[C]_(r, p)) : 'M[C]_(n, p) := adj comp *m Y.
End Model.
