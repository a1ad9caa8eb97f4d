(** * Vocabulary of C34 and C35 *)
From Coq Require Import List Arith Bool Lia.
From Verif Require Import Py Model_Param.
Import ListNotations.
Set Implicit Arguments.

Section Spec.
Variables (V : Type) (v0 : V) (W : Type).
Implicit Types E : env V W.

(** a well-formed array has as many entries as its shape says *)
Definition array2 (A : arr2 V) : Prop := length (d2 A) = r2 A * c2 A.
Definition array3 (A : arr3 V) : Prop := length (d3 A) = n0 A * n1 A * n2 A.
(** [A] has shape (r, c) and entries [f] *)
Definition is2 (A : arr2 V) (r c : nat) (f : nat -> nat -> V) : Prop :=
  array2 A /\ r2 A = r /\ c2 A = c /\ forall i j, i < r -> j < c -> at2 v0 A i j = f i j.
Definition is3 (A : arr3 V) (a b c : nat) (f : nat -> nat -> nat -> V) : Prop :=
  array3 A /\ n0 A = a /\ n1 A = b /\ n2 A = c /\
  forall i j k, i < a -> j < b -> k < c -> at3 v0 A i j k = f i j k.

Definition column (A : arr2 V) (c : nat) : list V := map (fun i => at2 v0 A i c) (seq 0 (r2 A)).

(** the POD expands the coefficients of every training snapshot to that snapshot,
    and any vector of coefficients to a vector of the size of a snapshot *)
Definition exact_pod E (P : e_P E) (C M : arr2 V) : Prop :=
  (forall c, c < c2 M -> pod_expand E P (column C c) = Ok (column M c)) /\
  (forall u, length u = r2 C -> exists v, pod_expand E P u = Ok v /\ length v = r2 M).

(** the interpolator accepts [k] training parameters with [r] values each, predicts one row per query,
    and is exact at the training parameters *)
Definition interpolates E (k r : nat) (tr par : list (list W)) : Prop :=
  forall a M, array2 M -> r2 M = k -> c2 M = r ->
  exists a' R, app_fit E a (S2 tr) M = Ok a' /\ app_predict E a' (S2 par) = Ok R /\
    r2 R = length par /\ c2 R = r /\
    forall q p, q < length par -> p < k -> nth_error par q = nth_error tr p ->
    forall j, j < r -> at2 v0 R q j = at2 v0 M p j.

(** with the time [t] the instances return the data [l] they were fitted with *)
Definition reproduce E (ds : list (e_D E)) (l : list (arr2 V)) (t : e_T E) : Prop :=
  Forall2 (fun d A => dmd_rec E (dmd_set_time E d t) = Ok A) ds l.

(** a time dictionary that was assigned is read back *)
Definition time_law E : Prop := forall (d : e_D E) t, dmd_time E (dmd_set_time E d t) = Ok t.
End Spec.
