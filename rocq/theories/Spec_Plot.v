(** * What the eigenvalue plots and the 2D plots should show *)
From Coq Require Import List ZArith Arith QArith.
From Verif Require Import Model_Plot.
Import ListNotations.

(** the point (x, y) lies inside the limits with [pad] to spare on every side *)
Definition inside (l : limits) (pad x y : Q) : Prop :=
  (infx l <= x - pad /\ x + pad <= supx l /\ infy l <= y - pad /\ y + pad <= supy l)%Q.

(** width and height differ at most by the factor [g] *)
Definition aspect_at_most (g : Q) (l : limits) : Prop :=
  (supx l - infx l <= g * (supy l - infy l) /\ supy l - infy l <= g * (supx l - infx l))%Q.

(** the box is as narrow as the padding allows, horizontally and vertically *)
Definition tight_x {E} (re : E -> Q) (l : limits) (pad : Q) (eigs : list E) : Prop :=
  exists a b, In a eigs /\ In b eigs /\ (supx l == re a + pad)%Q /\ (infx l == re b - pad)%Q.
Definition tight_y {E} (im : E -> Q) (l : limits) (pad : Q) (eigs : list E) : Prop :=
  exists a b, In a eigs /\ In b eigs /\ (supy l == im a + pad)%Q /\ (infy l == im b - pad)%Q.

(** an a x b array given by its rows; C-order flattening (Snapshots, C09) is the concatenation of the rows *)
Definition array {T} (a b : nat) (S : list (list T)) : Prop := List.length S = a /\ Forall (fun r => List.length r = b) S.
Definition entry {T} (S : list (list T)) (i j : nat) (v : T) : Prop := exists r, nth_error S i = Some r /\ nth_error r j = Some v.

(** the figure shows the value [v] at the point (x, y) *)
Definition shows {T} (f : figure T) (x y : Q) (v : T) : Prop := exists row, In row f /\ In ((x, y), v) row.
(** the k-th tick of the default axis *)
Definition tick (k : nat) : Q := inject_Z (Z.of_nat k).
