(** What the constructors of LANDO and EDMD ask of the kernel arguments, in the terms of their documentation. *)
From Coq Require Import List QArith String.
From Verif Require Import Py Model_KernelArgs.
Import ListNotations.
Open Scope nat_scope.
Open Scope string_scope.

(** the dictionary meant by kernel_params *)
Definition means (p : params_arg) (d : list (string * pval)) : Prop := p = KDict d \/ (p = KNone /\ d = []).
(** the three metrics of LANDO *)
Definition lando_metric (m : string) : Prop := m = "linear" \/ m = "poly" \/ m = "rbf".
(** a function that gives the matrix of 10 by 20 values for 10 and 20 samples of 5 features *)
Definition kernel_like (f : fobj) : Prop := exists k, f = FFun k /\ k [5; 10] [5; 20] = RArray [10; 20].
(** a function that gives 10 gradients of 5 entries for 10 samples and a point with 5 features *)
Definition gradient_like (g : fobj) : Prop := exists k, g = FFun k /\ k [5; 10] [5] = RArray [10; 5].
(** a custom kernel and gradient that may be given: none at all, a kernel, or both *)
Definition functions_ok (f g : fobj) : Prop := (f = FNone /\ g = FNone) \/ (kernel_like f /\ (g = FNone \/ gradient_like g)).
(** a function written for samples of [n] features: it raises for others *)
Definition only_for (n : nat) (k : list nat -> list nat -> ret) : Prop := forall m a b, m <> n -> k [m; a] [m; b] = RRaise.
(** the constant [q] is the value of the key [k], or the default [q0] if there is no such key *)
Definition uses (d : list (string * pval)) (k : string) (q0 q : Q) : Prop := In (k, PNum q) d \/ (~ In k (map fst d) /\ q = q0).
