(** Plots of COSTS: the mean of a signal, and limits that show every value. *)
From Coq Require Import List QArith Qabs String Arith.
From Verif Require Import Py Model_CostsPlot.
Import ListNotations.
Set Implicit Arguments.
Open Scope nat_scope.
Open Scope string_scope.

(** [m] is the mean of the first [n] values of [f] *)
Definition is_mean (n : nat) (f : nat -> Q) (m : Q) : Prop := (inject_Z (Z.of_nat n) * m == fold_right Qplus 0 (map f (seq 0 n)))%Q.
(** [v] is the sum of the values of all bands at one point and time *)
Definition is_total (s : sep) (i t : nat) (v : Q) : Prop := (v == fold_right Qplus 0 (map (fun n => xr s n i t) (seq 0 (bands s))))%Q.
(** the limits are symmetric, every value lies between them, and some value reaches them unless all are 0 *)
Definition tight (n t : nat) (m : nat -> nat -> Q) (d : dict) : Prop := exists q, get "vmin" d = Some (Num (- q)) /\ get "vmax" d = Some (Num q) /\
  (forall i j, i < n -> j < t -> (Qabs (m i j) <= q)%Q) /\ ((q == 0)%Q \/ exists i j, i < n /\ j < t /\ (Qabs (m i j) == q)%Q).
