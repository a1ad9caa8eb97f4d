(** * pydmd/utils.py: rank selection, pseudo-Hankel matrix, finite differences;
      pydmd/snapshots.py; the time steps of pydmd/dmdbase.py *)
From Coq Require Import List ZArith Lia Bool Arith QArith Qround.
From Verif Require Import Py NdArray.
Import ListNotations.
Local Open Scope nat_scope.
Local Open Scope Q_scope.

(** ** Rank selection

    Singular values are exact rationals (floats are; their products and sums
    are exact here, rounding is not modelled). *)

(** [svd_rank]: a Python int (bool included) or another number. svd_rank of utils.py:54-91 *)
Inductive rank_arg := RInt (z : Z) | RNum (q : Q).
(** utils.py:81-86 *)
Definition rank_val (r : rank_arg) : Q := match r with RInt z => inject_Z z | RNum q => q end.
(** utils.py:86 *)
Definition rank_is_int (r : rank_arg) : bool := match r with RInt _ => true | RNum _ => false end.

(** utils.py:41 *)
Definition Qltb (a b : Q) : bool := negb (Qle_bool b a).

(** np.median, utils.py:40 *)
Fixpoint qinsert (x : Q) (l : list Q) : list Q :=
  match l with
  | [] => [x]
  | y :: t => if Qle_bool x y then x :: l else y :: qinsert x t
  end.
(** np.median, utils.py:40 *)
Definition qsort (l : list Q) : list Q := fold_right qinsert [] l.

(** np.median. utils.py:40 *)
Definition median (l : list Q) : Q :=
  let s := qsort l in
  let n := length l in
  (nth (Nat.div (n - 1) 2) s 0 + nth (Nat.div n 2) s 0) / 2.

(** utils.py:40-42 *)
Definition beta (rows cols : nat) : Q :=
  inject_Z (Z.of_nat (Nat.min rows cols)) / inject_Z (Z.of_nat (Nat.max rows cols)).
(** utils.py:39 *)
Definition omega (b : Q) : Q :=
  (56 # 100) * (b * b * b) - (95 # 100) * (b * b) + (182 # 100) * b + (143 # 100).
(** utils.py:40 *)
Definition tau (sigma : list Q) (rows cols : nat) : Q := median sigma * omega (beta rows cols).

(** utils.py:19-51: _svht; the warning is not modelled *)
Definition svht (sigma : list Q) (rows cols : nat) : nat :=
  let rank := length (filter (fun s => Qltb (tau sigma rows cols) s) sigma) in
  if Nat.eqb rank 0 then 1%nat else rank.

(** utils.py:84 *)
Fixpoint qsum (l : list Q) : Q := match l with [] => 0 | x :: t => x + qsum t end.
(** np.cumsum, utils.py:84 *)
Fixpoint cumsum_from (a : Q) (l : list Q) : list Q :=
  match l with [] => [] | x :: t => (a + x) :: cumsum_from (a + x) t end.
(** utils.py:84 *)
Definition cumsum (l : list Q) : list Q := cumsum_from 0 l.

(** np.searchsorted (side left): the first position whose entry is not below
    the value.  NumPy bisects; on a sorted array the results agree. utils.py:85 *)
Fixpoint searchsorted (l : list Q) (v : Q) : nat :=
  match l with [] => 0 | x :: t => if Qle_bool v x then 0 else S (searchsorted t v) end.

(** utils.py:54-91: _compute_rank.  When all singular values are 0 the
    energies are NaN, which NumPy sorts after every number: searchsorted is 0. *)
Definition compute_rank (sigma : list Q) (rows cols : nat) (r : rank_arg) : nat :=
  let v := rank_val r in
  if Qeq_bool v 0 then svht sigma rows cols
  else if Qltb 0 v && Qltb v 1 then
    let energies := map (fun s => s * s) sigma in
    let total := qsum energies in
    if Qeq_bool total 0 then 1%nat
    else S (searchsorted (cumsum (map (fun e => (e / total)%Q) energies)) v)
  else if Qle_bool 1 v && rank_is_int r
       then Nat.min (Z.to_nat (match r with RInt z => z | RNum _ => 0 end)) (length sigma)
       else Nat.min rows cols.

(** ** pseudo_hankel_matrix (utils.py:271-303)

    [reshape(m-d+1, -1)]: the -1 is resolved to size / (m-d+1). *)
Definition pseudo_hankel {A} (X : nd A) (d : nat) : result (nd A) :=
  match shape X with
  | [n; m] =>
      match windows (transpose X) [d; n] with
      | Err x => Err x
      | Ok w =>
          let a := take_axis1_0 w in
          let r := (m - d + 1)%nat in
          Ok (transpose (reshape a [r; Nat.div (size (shape a)) r]))
      end
  | _ => Err ValueError
  end.

(** ** differentiate (utils.py:306-320), a two-dimensional input given by rows;
    the squeeze and the dtype of the result are not modelled.  Rows with fewer
    than three samples raise IndexError (X[:, 2], X[:, -3]). *)
Section Diff.
Variable dt : Q.
Definition cell (row : list Q) (j : nat) : Q := nth j row 0.
(** utils.py:317-319 *)
Definition diff_row (row : list Q) : list Q :=
  let n := length row in
  map (fun j =>
    if Nat.eqb j 0 then ((-(3)) * cell row 0 + 4 * cell row 1 - cell row 2) / (2 * dt)
    else if Nat.eqb j (n - 1)
         then (3 * cell row (n - 1) - 4 * cell row (n - 2) + cell row (n - 3)) / (2 * dt)
         else (cell row (j + 1) - cell row (j - 1)) / (2 * dt)) (seq 0 n).
(** utils.py:312-320 *)
Definition differentiate (X : list (list Q)) : result (list (list Q)) :=
  if forallb (fun row => Nat.leb 3 (length row)) X then Ok (map diff_row X) else Err IndexError.
End Diff.

(** ** Snapshots (snapshots.py:43-67 and the check of 31-32) *)
Inductive snap_input (A : Type) :=
| SArr (a : nd A)             (* has ndim: an array, time on the last axis *)
| SList (l : list (nd A)).    (* a sequence of snapshots *)
Arguments SArr {A}. Arguments SList {A}.

(** The set of shapes, snapshots.py:56-57 *)
Definition shape_eqb (s t : list nat) : bool :=
  if list_eq_dec Nat.eq_dec s t then true else false.

(** np.moveaxis(np.stack(arrays), 0, -1) for one-dimensional arrays of length
    [n]: entry (i, j) is entry i of array j. snapshots.py:65 *)
Definition stack_cols {A} (n : nat) (l : list (nd A)) (dflt : nd A) : nd A :=
  mkNd [n; length l] (fun idx =>
    match idx with [i; j] => at_ (nth j l dflt) [i] | _ => at_ dflt [0%nat] end).

(** [X.reshape((-1, X.shape[-1]))]: ValueError when the last axis is empty. snapshots.py:43-67 *)
Definition unroll {A} (X : snap_input A) : result (nd A * list nat) :=
  match X with
  | SArr a =>
      match rev (shape a) with
      | [] => Err IndexError                       (* X.shape[-1] of a 0-d array *)
      | [_] => Err ValueError
      | m :: rest =>
          if Nat.eqb m 0 then Err ValueError
          else Ok (reshape a [Nat.div (size (shape a)) m; m], rev rest)
      end
  | SList [] => Err ValueError                     (* zip of nothing cannot be unpacked *)
  | SList (a :: l) =>
      if forallb (fun b => shape_eqb (shape b) (shape a)) l then
        match shape a with
        | [] => Err ValueError
        | s => Ok (stack_cols (size s) (map flatten (a :: l)) (flatten a), s)
        end
      else Err ValueError
  end.

(** Snapshots.__init__: [_check_condition_number] only warns, except that
    NumPy refuses an empty matrix (not modelled). snapshots.py:25-32 *)
Definition snapshots {A} (X : snap_input A) : result (nd A * list nat) :=
  match unroll X with
  | Err x => Err x
  | Ok (M, s) =>
      match shape M with
      | [_; m] => if Nat.eqb m 1 then Err ValueError else Ok (M, s)
      | _ => Err ValueError
      end
  end.

(** ** dmd_timesteps / original_timesteps (dmdbase.py:199-225)

    np.arange(start, stop, step) has ceil((stop - start)/step) entries when
    positive, entry k being start + k*step; step 0 raises ZeroDivisionError. *)
Definition arange (start stop step : Q) : result (list Q) :=
  if Qeq_bool step 0 then Err ZeroDivisionError
  else Ok (map (fun k => start + inject_Z (Z.of_nat k) * step)
               (seq 0 (Z.to_nat (Qceiling ((stop - start) / step))))).
(** dmdbase.py:199-225 *)
Definition timesteps (t0 tend dt : Q) : result (list Q) := arange t0 (tend + dt) dt.
