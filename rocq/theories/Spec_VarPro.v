(** * VarProDMD: specification vocabulary *)
From mathcomp Require Import all_ssreflect all_fingroup all_algebra.
From Verif Require Import LinAlg Proofs_LandoDeriv Proofs_Limit.
Set Implicit Arguments. Unset Strict Implicit. Unset Printing Implicit Defensive.
Import GRing.Theory Num.Theory.
Local Open Scope ring_scope.

Section Spec.
Variable C : numClosedFieldType.

(** exp(w_j t_i): one row per time, one column per eigenvalue *)
Definition exponentials (ex : C -> C) k l (t : 'rV[C]_k) (w : 'rV[C]_l) : 'M[C]_(k, l) := \matrix_(i, j) ex (t 0 i * w 0 j).
(** the derivative of column j with respect to its eigenvalue *)
Definition exp_slope (ex : C -> C) k l (t : 'rV[C]_k) (w : 'rV[C]_l) (j : 'I_l) : 'cV[C]_k := \col_i (t 0 i * ex (t 0 i * w 0 j)).
(** ex behaves as the exponential near a: its derivative in every direction b is b ex(a) *)
Definition exp_near (ex : C -> C) (a : C) : Prop := forall b, is_derivative (fun s => ex (a + s * b)) (b * ex a).

(** real vectors of length l + l as complex vectors of length l *)
Definition all_real p (a : 'rV[C]_p) : Prop := forall j, a 0 j \is Num.real.
Definition complex_of l (a : 'rV[C]_(l + l)) : 'rV[C]_l := \row_j (a 0 (lshift l j) + 'i * a 0 (rshift l j)).
Definition sum_sq p (a : 'rV[C]_p) : C := \sum_j a 0 j ^+ 2.

(** the columns of a matrix, or the entries of a vector, at chosen places *)
Definition at_samples n m (X : 'M[C]_(n, m)) (s : seq 'I_m) : 'M[C]_(n, size s) := \matrix_(i, j) X i (tnth (in_tuple s) j).
(** the sum of modes times exponentials *)
Definition exp_sum (ex : C -> C) n l k (M : 'M[C]_(n, l)) (w : 'rV[C]_l) (t : 'rV[C]_k) : 'M[C]_(n, k) := M *m (exponentials ex t w)^T.

(** difference quotients and means of neighbouring samples *)
Definition slopes n m (X : 'M[C]_(n, m.+1)) (t : 'rV[C]_m.+1) : 'M[C]_(n, m) :=
  \matrix_(i, j) ((X i (lift ord0 j) - X i (lift ord_max j)) / (t 0 (lift ord0 j) - t 0 (lift ord_max j))).
Definition means n m (X : 'M[C]_(n, m.+1)) : 'M[C]_(n, m) := \matrix_(i, j) ((X i (lift ord0 j) + X i (lift ord_max j)) / 2%:R).

(** an order: larger values of f come first *)
Definition descending (f : C -> C) l (w : 'rV[C]_l) : Prop := forall i j : 'I_l, (i <= j)%N -> f (w 0 j) <= f (w 0 i).
(** np.argsort: the values in ascending order *)
Definition sorts (argsort : forall l, 'rV[C]_l -> 'S_l) : Prop :=
  forall l (v : 'rV[C]_l) (i j : 'I_l), all_real v -> (i <= j)%N -> v 0 (argsort l v i) <= v 0 (argsort l v j).
End Spec.
