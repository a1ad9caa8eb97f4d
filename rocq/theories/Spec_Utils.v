(** * Vocabulary of the statements about utils.py, snapshots.py and the time steps *)
From Coq Require Import List ZArith QArith.
From Verif Require Import NdArray.
Import ListNotations.
Local Open Scope Q_scope.

(** the sum of the squares of the first [k] singular values *)
Fixpoint energy (sigma : list Q) (k : nat) : Q :=
  match k, sigma with
  | S k', s :: t => s * s + energy t k'
  | _, _ => 0
  end.

(** how many entries exceed a bound *)
Fixpoint count_above (t : Q) (l : list Q) : nat :=
  match l with
  | [] => 0
  | x :: r => if Qlt_le_dec t x then S (count_above t r) else count_above t r
  end.

(** a natural number as a rational *)
Definition rat (n : nat) : Q := inject_Z (Z.of_nat n).

(** u*x + v*y, entry by entry *)
Definition lincomb (u v : Q) (x y : list Q) : list Q :=
  map (fun p => u * fst p + v * snd p) (combine x y).

(** the [j]-th snapshot of an array with time on the last axis *)
Definition slice_last {A} (a : nd A) (s : list nat) (j : nat) : nd A :=
  mkNd s (fun idx => at_ a (idx ++ [j])).
