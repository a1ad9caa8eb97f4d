(** * Specification vocabulary for C24 and C25 *)
From Coq Require Import List ZArith Lia Bool Arith QArith Qcanon String.
From Verif Require Import Py NdArray Model_Hankel.
Import ListNotations.
Local Open Scope nat_scope.
Local Notation length := List.length.

(** the laws of a module over the rationals that the averages need *)
Record qmod_laws (M : qmod) : Prop := mkLaws {
  ql_addA : forall x y z : qm_V M, qm_add M x (qm_add M y z) = qm_add M (qm_add M x y) z;
  ql_addC : forall x y : qm_V M, qm_add M x y = qm_add M y x;
  ql_add0 : forall x : qm_V M, qm_add M (qm_zero M) x = x;
  ql_scale0 : forall x : qm_V M, qm_scale M (Q2Qc 0) x = qm_zero M;
  ql_scale1 : forall x : qm_V M, qm_scale M (Q2Qc 1) x = x;
  ql_scaleD : forall a b (x : qm_V M), qm_scale M (a + b)%Qc x = qm_add M (qm_scale M a x) (qm_scale M b x);
  ql_scaleA : forall a b (x : qm_V M), qm_scale M a (qm_scale M b x) = qm_scale M (a * b)%Qc x }.

(** delay block i of time t can be read off a delay matrix whose columns start
    at times k0 .. k1: column t - i exists *)
Definition has_block (k0 k1 d t i : nat) : bool := (i <? d) && (k0 + i <=? t) && (t <=? k1 + i).

(** the total weight of the blocks available at time t *)
Definition block_weight (ws : list Qc) (k0 k1 d t : nat) : Qc :=
  fold_right (fun p acc => if has_block k0 k1 d t (fst p) then (snd p + acc)%Qc else acc)
    (Q2Qc 0) (combine (seq 0 d) ws).
(** the weighted sum of f i over the blocks i available at time t *)
Definition block_sum (M : qmod) (ws : list Qc) (k0 k1 d t : nat) (f : nat -> qm_V M) : qm_V M :=
  fold_right (fun p acc => if has_block k0 k1 d t (fst p)
                           then qm_add M (qm_scale M (snd p) (f (fst p))) acc else acc)
    (qm_zero M) (combine (seq 0 d) ws).

(** the number of blocks available at time t *)
Definition block_count (k0 k1 d t : nat) : nat := length (filter (has_block k0 k1 d t) (seq 0 d)).

(** all entries are numbers (no NaN) *)
Definition numbers {A} (a : nd A) : nd (option A) := mkNd (shape a) (fun idx => Some (at_ a idx)).

Definition Qcn (n : nat) : Qc := Q2Qc (inject_Z (Z.of_nat n)).

(** the averaging methods and the weights they use *)
Definition known_method (meth : rec_method) (d : nat) (weights : list Qc) : Prop :=
  meth = MWeights weights /\ length weights = d \/
  meth = MStr "mean"%string /\ weights = repeat (Q2Qc 1) d.

(** the requested window consists of the time steps a .. b, counted from the
    first snapshot, which is at time 0 *)
Record aligned (orig dmd : times) (a b : nat) : Prop := mkAligned {
  al_origin : (tm_t0 orig == 0)%Q;
  al_dt : (~ tm_dt dmd == 0)%Q;
  al_t0 : (tm_t0 dmd == inject_Z (Z.of_nat a) * tm_dt dmd)%Q;
  al_tend : (tm_tend dmd == inject_Z (Z.of_nat b) * tm_dt dmd)%Q }.

(** the inner DMD reproduces the delay vectors of a trajectory x (n values per
    time step) that start at the time steps k0 .. k1 *)
Definition tracks (M : qmod) (n d : nat) (inner : Qc -> nat -> option (qm_V M))
    (x : nat -> nat -> qm_V M) (k0 k1 : nat) : Prop :=
  forall k i s, k0 <= k <= k1 -> i < d -> s < n -> inner (Qcn k) (i * n + s) = Some (x (k + i) s).

(** missing values are returned as zero *)
Definition fill (M : qmod) (c : option (qm_V M)) : qm_V M :=
  match c with Some v => v | None => qm_zero M end.

(** the rational numbers themselves *)
Definition QcM : qmod := mkQmod Qc (Q2Qc 0) Qcplus Qcmult.
Lemma QcM_laws : qmod_laws QcM.
Proof. constructor; simpl; intros; ring. Qed.
(** complex numbers with rational parts *)
Definition GaussM : qmod :=
  mkQmod (Qc * Qc) (Q2Qc 0, Q2Qc 0) (fun x y => (fst x + fst y, snd x + snd y)%Qc)
    (fun a x => (a * fst x, a * snd x)%Qc).
Lemma GaussM_laws : qmod_laws GaussM.
Proof. constructor; simpl; intros; repeat match goal with x : (_ * _)%type |- _ => destruct x end; simpl; f_equal; ring. Qed.
