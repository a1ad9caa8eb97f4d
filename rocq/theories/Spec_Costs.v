(** * What C44 and C45 talk about, independently of the code's loops *)
From mathcomp Require Import all_ssreflect all_fingroup all_algebra.
Set Implicit Arguments. Unset Strict Implicit. Unset Printing Implicit Defensive.
Import GRing.Theory Num.Theory.
Local Open Scope ring_scope.

Section SpecCosts.
Variable C : numClosedFieldType.
Variable ex : C -> C.

(** the exponential of a real number is positive *)
Definition exp_positive : Prop := forall z : C, z \is Num.real -> 0 < ex z.

(** the DMD expansion with modes, eigenvalues and amplitudes, [tau] after its origin *)
Definition expansion n r (W : 'M[C]_(n, r)) (e b : 'rV[C]_r) (tau : C) : 'cV[C]_n :=
  W *m diag_mx b *m (\row_j ex (e 0 j * tau))^T.

(** nonnegative weights of sum 1, only for the windows that contain [s] *)
Record weights (ls : seq (seq nat)) (s : nat) (wt : nat -> C) : Prop := Weights {
  wt_ge0 : forall k, 0 <= wt k;
  wt_sum : \sum_(k < size ls) wt k = 1;
  wt_local : forall k, s \notin nth [::] ls k -> wt k = 0 }.

(** ** orderings *)
(** what np.argsort returns: a permutation of the indexes that puts the values in increasing order *)
Definition is_argsort (l : seq C) (idx : seq nat) : Prop :=
  perm_eq idx (iota 0 (size l)) /\ sorted (fun a b => nth 0 l a <= nth 0 l b) idx.
(** what k-means returns: n centroids, one label per value, the same label for the same value, and every value is
    at least as close to its own centroid as to the others *)
Record is_kmeans (n : nat) (l : seq C) (labels : seq nat) (cent : seq C) : Prop := IsKmeans {
  km_count : size cent = n;
  km_size : size labels = size l;
  km_range : all (fun j => j < n)%N labels;
  km_real : all (fun z => z \is Num.real) cent;
  km_same : forall i j, (i < size l)%N -> (j < size l)%N -> nth 0 l i = nth 0 l j -> nth 0%N labels i = nth 0%N labels j;
  km_near : forall i j, (i < size l)%N -> (j < n)%N ->
    `|nth 0 l i - nth 0 cent (nth 0%N labels i)| <= `|nth 0 l i - nth 0 cent j| }.
Definition kmeans_ok (km : nat -> seq C -> seq nat * seq C) : Prop :=
  forall n l, (0 < n <= size l)%N -> all (fun z => z \is Num.real) l -> is_kmeans n l (km n l).1 (km n l).2.
Definition argsort_ok (srt : seq C -> seq nat) : Prop := forall l, all (fun z => z \is Num.real) l -> is_argsort l (srt l).
(** what log10 does to positive numbers: real values, increasing *)
Definition is_log (lg : C -> C) : Prop :=
  (forall a, 0 < a -> lg a \is Num.real) /\ (forall a b, 0 < a -> a < b -> lg a < lg b).
End SpecCosts.
