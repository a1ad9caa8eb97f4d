(** * Specification vocabulary for MrDMD *)
From Coq Require Import List ZArith Lia Bool Arith QArith.
From Verif Require Import Py Model_MrDMD.
Import ListNotations.
Local Open Scope nat_scope.

(** the addresses of a tree of depth [d] *)
Definition address (d : nat) (p : nat * nat) : Prop := fst p <= d /\ snd p < 2 ^ fst p.

(** one write per (address, value), the last entry being the latest write *)
Fixpoint write_all {A} (t : btree A) (ws : list ((nat * nat) * A)) : result (btree A) :=
  match ws with
  | [] => Ok t
  | (p, a) :: ws' => let! t' := bt_set_nat t p a in write_all t' ws'
  end.

(** the value written last to [p], if any *)
Fixpoint last_write {A} (ws : list ((nat * nat) * A)) (p : nat * nat) : option A :=
  match ws with
  | [] => None
  | (q, a) :: ws' =>
      match last_write ws' p with
      | Some b => Some b
      | None => if (fst q =? fst p) && (snd q =? snd p) then Some a else None
      end
  end.

(** [B] is [X] cut into [n] consecutive blocks whose sizes differ by at most
    one, the larger blocks first *)
Definition balanced_cut {V} (X : list V) (n : nat) (B : list (list V)) : Prop :=
  length B = n /\ concat B = X /\
  (forall i j b c, i <= j -> nth_error B i = Some b -> nth_error B j = Some c ->
                   length c <= length b <= length c + 1).

(** number of columns before block [k] *)
Definition block_start {V} (B : list (list V)) (k : nat) : nat :=
  fold_right (fun b s => length b + s) 0 (firstn k B).

(** column [j] belongs to block [k] *)
Definition in_block {V} (B : list (list V)) (k j : nat) : Prop :=
  block_start B k <= j < block_start B (S k).

(** the instant [t] belongs to the half-open interval of a leaf *)
Definition in_interval (l : interval) (t : Q) : Prop := (iv_t0 l <= t /\ t < iv_tend l)%Q.

(** two half-open windows [a, b) and [c, d) have an instant in common *)
Definition meets (a b c d : Q) : Prop := exists t, (a <= t /\ t < b /\ c <= t /\ t < d)%Q.

(** lexicographic order on (level, leaf) *)
Definition before (p q : nat * nat) : Prop :=
  fst p < fst q \/ (fst p = fst q /\ snd p < snd q).

Record vspace_laws (W : vspace) : Prop := {
  law_assoc : forall x y z, vs_add W x (vs_add W y z) = vs_add W (vs_add W x y) z;
  law_comm : forall x y, vs_add W x y = vs_add W y x;
  law_zero : forall x, vs_add W (vs_zero W) x = x;
  law_sub : forall x y, vs_add W (vs_sub W x y) y = x;
  law_smul0 : forall v, vs_smul W (vs_kzero W) v = vs_zero W }.

(** column-wise sum of two snapshot matrices of the same width *)
Definition add_cols (W : vspace) (X Y : list (vs_V W)) : list (vs_V W) :=
  map (fun xy => vs_add W (fst xy) (snd xy)) (combine X Y).

(** the dynamics rows a leaf fit produces have one entry per snapshot *)
Definition leaf_fit_ok {W E cfg} (leaf_fit : cfg -> list (vs_V W) -> result (list (mode W E))) : Prop :=
  forall c x ms, leaf_fit c x = Ok ms ->
                 Forall (fun m => length (md_dyn _ _ m) = length x) ms.

(** the configuration the [dmd] argument designates for a node *)
Definition designates {cfg} (d : dmd_arg cfg) (l k : nat) (c : cfg) : Prop :=
  match d with
  | DCallable _ f => f l k = Ok c
  | DSequence _ s => nth_error s l = Some c
  | DInstance _ c0 => c = c0
  | DOther _ => False
  end.

(** objects obtained from the constructor by any sequence of fits, successful
    or not *)
Inductive reachable {W E cfg} (leaf_fit : cfg -> list (vs_V W) -> result (list (mode W E)))
  (cycles : E -> Q) : mrdmd W E cfg -> Prop :=
| reach_init d max_level max_cycles m :
    mr_init W E cfg d max_level max_cycles = Ok m -> reachable leaf_fit cycles m
| reach_fit m X : reachable leaf_fit cycles m ->
    reachable leaf_fit cycles (fst (mr_fit W E cfg leaf_fit cycles m X)).

(** the depth used for [T] snapshots when [requested] levels are asked for *)
Definition effective_level (requested T : nat) : nat :=
  Nat.min requested (Z.to_nat (lvl_threshold T)).

(** column-wise sum of a list of snapshot matrices added to [R] *)
Fixpoint sum_cols (W : vspace) (R : list (vs_V W)) (L : list (list (vs_V W))) : list (vs_V W) :=
  match L with [] => R | Y :: L' => add_cols W (sum_cols W R L') Y end.
