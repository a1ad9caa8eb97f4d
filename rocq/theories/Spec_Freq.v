(** Complex numbers in polar form, powers, the principal logarithm. *)
From Coq Require Import List Reals.
From Verif Require Import Model_Freq.
Local Open Scope R_scope.

Definition polar (r a : R) : cx := (r * cos a, r * sin a).
Definition modulus (z : cx) : R := sqrt (fst z * fst z + snd z * snd z).
Definition cmul (z w : cx) : cx := (fst z * fst w - snd z * snd w, fst z * snd w + snd z * fst w).
(** the factor of a mode after [k] steps *)
Fixpoint cpow (z : cx) (k : nat) : cx := match k with O => (1, 0) | S k => cmul z (cpow z k) end.
(** exp(z t) for a real time: the factor of a mode of a continuous model *)
Definition cexp_t (z : cx) (t : R) : cx := polar (exp (fst z * t)) (snd z * t).
(** [l] is the principal logarithm of [z] *)
Definition is_log (l z : cx) : Prop := z = polar (exp (fst l)) (snd l) /\ - PI < snd l <= PI.
