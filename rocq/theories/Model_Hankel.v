(** * Model of pydmd/preprocessing/hankel.py, pydmd/hankeldmd.py and pydmd/hodmd.py

    Arrays are [nd]; an entry of a reconstruction is [Some v] or [None] (NaN,
    and also the masked entries of np.ma).  Values live in a module over the
    rationals ([qmod]): rational numbers, complex numbers with rational parts, ...
    Arithmetic is exact: rounding is not modelled. *)
From Coq Require Import List ZArith Lia Bool Arith QArith Qround Qcanon String.
From Verif Require Import Py NdArray Model_Utils.
Import ListNotations.
Local Open Scope nat_scope.
Local Notation length := List.length.

(** the values and the operations the post-processing uses on them.
    Entries of the arrays averaged at preprocessing/hankel.py:121-125 *)
Record qmod := mkQmod {
  qm_V : Type; qm_zero : qm_V; qm_add : qm_V -> qm_V -> qm_V; qm_scale : Qc -> qm_V -> qm_V }.

(** ** numpy pieces *)
(** integer fancy assignment a[I, J, :] = values: the listed writes, in order;
    a write is (time, delay, the block written). preprocessing/hankel.py:77 *)
Definition write {A} (a : nat -> nat -> nat -> A) (w : nat * nat * (nat -> A)) : nat -> nat -> nat -> A :=
  let '(t, i, blk) := w in
  fun t' i' s => if (t' =? t) && (i' =? i) then blk s else a t' i' s.
(** preprocessing/hankel.py:77 *)
Definition fancy_assign {A} (a : nat -> nat -> nat -> A) (ws : list (nat * nat * (nat -> A))) :=
  fold_left write ws a.

(** the columns lo, lo+1, ... that the slice [start : stop] selects from an
    array with two axes. hankeldmd.py:162-164 *)
Definition slice_cols {A} (a : nd A) (start stop : Z) : nd A :=
  match shape a with
  | [n; m] =>
      let sl := mkSlice (Some start) (Some stop) None in
      mkNd [n; slice_len m sl]
        (fun idx => match idx with
                    | [s; j] => at_ a [s; Z.to_nat (slice_lo m sl) + j]
                    | _ => at_ a idx
                    end)
  | _ => a
  end.

Section Hankel.
Context (M : qmod).
Notation V := (qm_V M).
Notation cell := (option V).

(** ** _reconstructions (preprocessing/hankel.py:48-78)

    [np.split(rec, d, axis=-2)] raises ValueError when d does not divide the
    number of rows; d = 0 raises ZeroDivisionError (line 63).  The array of
    line 67-69 is complex or floating, so that it can hold NaN. *)
Definition delay_table (rec : nd cell) (d : nat) : result (nd cell) :=
  match shape rec with
  | [rows; cols] =>
      if d =? 0 then Err ZeroDivisionError
      else if negb (rows mod d =? 0) then Err ValueError
      else
        let space := rows / d in
        let writes := flat_map (fun c => map (fun i =>
              (c + i, i, fun s => at_ rec [i * space + s; c])) (seq 0 d)) (seq 0 cols) in
        let full := fancy_assign (fun _ _ _ => None) writes in
        Ok (mkNd [cols + d - 1; d; space]
              (fun idx => match idx with [t; i; s] => full t i s | _ => None end))
  | _ => Err ValueError
  end.

(** ** _first_reconstructions (preprocessing/hankel.py:81-96) *)
Definition first_delay (d t : nat) : nat := if d - 1 <=? t then d - 1 else t.
(** preprocessing/hankel.py:92-96 *)
Definition first_rec (tab : nd cell) (d : nat) : nd cell :=
  match shape tab with
  | [nt; _; space] =>
      mkNd [space; nt]
        (fun idx => match idx with [s; t] => at_ tab [t; first_delay d t; s] | _ => None end)
  | _ => tab
  end.

(** ** averages over the delay axis

    np.nanmean / np.ma.average on the masked table: masked entries do not
    count; an empty or zero total weight gives a masked result.  (mean is the
    average with equal weights.). preprocessing/hankel.py:121, 123 *)
Definition avg_num (ws : list Qc) (cs : list cell) : V :=
  fold_right (fun p acc => match snd p with
                           | Some v => qm_add M (qm_scale M (fst p) v) acc
                           | None => acc
                           end) (qm_zero M) (combine ws cs).
(** preprocessing/hankel.py:121, 123 *)
Definition avg_den (ws : list Qc) (cs : list cell) : Qc :=
  fold_right (fun p acc => match snd p with
                           | Some _ => (fst p + acc)%Qc
                           | None => acc
                           end) (Q2Qc 0) (combine ws cs).
(** preprocessing/hankel.py:121, 123 *)
Definition ma_average (ws : list Qc) (cs : list cell) : cell :=
  let den := avg_den ws cs in
  if Qc_eq_dec den (Q2Qc 0) then None else Some (qm_scale M (/ den)%Qc (avg_num ws cs)).

(** The axis averaged at preprocessing/hankel.py:121, 123 *)
Definition delays (tab : nd cell) (d t s : nat) : list cell :=
  map (fun i => at_ tab [t; i; s]) (seq 0 d).
(** preprocessing/hankel.py:120-125 *)
Definition avg_rec (tab : nd cell) (d : nat) (ws : list Qc) : nd cell :=
  match shape tab with
  | [nt; _; space] =>
      mkNd [space; nt]
        (fun idx => match idx with [s; t] => ma_average ws (delays tab d t s) | _ => None end)
  | _ => tab
  end.

(** ** _HankelPrePostProcessing (preprocessing/hankel.py:99-130)

    Lists and tuples have become arrays (hankel.py:38-39); weights are arrays
    with one axis.  [filled(fill_value=0)] turns masked entries into 0. *)
Inductive rec_method := MStr (name : string) | MWeights (ws : list Qc) | MOther.

(** preprocessing/hankel.py:129 *)
Definition filled (a : nd cell) : nd V :=
  mkNd (shape a) (fun idx => match at_ a idx with Some v => v | None => qm_zero M end).

(** preprocessing/hankel.py:107-108 *)
Definition hankel_pre {A} (d : nat) (X : nd A) : result (nd A) := pseudo_hankel X d.

(** preprocessing/hankel.py:111-129 *)
Definition hankel_post (meth : rec_method) (d : nat) (Y : nd cell) : result (nd V) :=
  let! tab := delay_table Y d in
  match meth with
  | MStr name =>
      if String.eqb name "first" then Ok (filled (first_rec tab d))
      else if String.eqb name "mean" then Ok (filled (avg_rec tab d (repeat (Q2Qc 1) d)))
      else Err UnboundLocalError
  | MWeights ws =>
      if length ws =? d then Ok (filled (avg_rec tab d ws)) else Err ValueError
  | MOther => Err ValueError
  end.

(** ** HankelDMD (hankeldmd.py)

    The inner DMD enters through [inner]: the value of row r of its
    reconstruction at one of its own time steps (dmdbase.py:327-334: column c
    of reconstructed_data depends on the c-th entry of dmd_timesteps only, see
    Model_Operator); [rows] is its number of rows.  fit leaves the inner DMD
    with time step 1 (dmd.py:137-139), which nothing but the user changes. *)
Record times := mkTimes { tm_t0 : Q; tm_tend : Q; tm_dt : Q }.

(** reconstructed_data of the inner DMD over its window t0 .. tend, step 1. Read at hankeldmd.py:162 *)
Definition inner_reconstruction (rows : nat) (inner : Qc -> nat -> cell) (t0 tend : Q) : result (nd cell) :=
  let! ts := timesteps t0 tend 1%Q in
  Ok (mkNd [rows; length ts]
        (fun idx => match idx with [r; c] => inner (Q2Qc (nth c ts 0%Q)) r | _ => None end)).

(** Python floor division of numbers. hankeldmd.py:132, 158-159 *)
Definition floordiv (a b : Q) : result Z :=
  if Qeq_bool b 0 then Err ZeroDivisionError else Ok (Qfloor (a / b)%Q).

(** _hankel_first_occurrence (hankeldmd.py:117-134) *)
Definition first_occurrence (d : nat) (orig dmd : times) (time : Q) : result Q :=
  let! k := floordiv (time - tm_t0 orig)%Q (tm_dt dmd) in
  let v := (inject_Z k - (tm_t0 orig + inject_Z (Z.of_nat d) - 1))%Q in
  Ok (if Qle_bool v 0 then 0%Q else v).

(** reconstructed_data (hankeldmd.py:136-164) *)
Definition hankel_reconstructed (meth : rec_method) (d rows : nat) (inner : Qc -> nat -> cell)
    (orig dmd : times) : result (nd V) :=
  let! a := first_occurrence d orig dmd (tm_t0 dmd) in
  let! b := first_occurrence d orig dmd (tm_tend dmd) in
  let! k := floordiv (tm_t0 dmd - tm_t0 orig)%Q (tm_dt dmd) in
  let time_index := Z.min (Z.of_nat d - 1) k in
  let! Y := inner_reconstruction rows inner a b in
  let! R := hankel_post meth d Y in
  let! ts := timesteps (tm_t0 dmd) (tm_tend dmd) (tm_dt dmd) in
  Ok (slice_cols R time_index (time_index + Z.of_nat (length ts))).

(** __init__ (hankeldmd.py:66-115): the check of the weights.  A tuple of
    weights is not checked here; an array without dimensions has no [shape[0]]. *)
Inductive method_arg := AStr (name : string) | AList (ws : list Qc) | ATuple (ws : list Qc)
  | AArray (ndim : nat) (ws : list Qc) | AElse.
(** hankeldmd.py:64-115 *)
Definition hankel_init (m : method_arg) (d : nat) : result rec_method :=
  match m with
  | AStr s => Ok (MStr s)
  | AList ws => if length ws =? d then Ok (MWeights ws) else Err ValueError
  | ATuple ws => Ok (MWeights ws)
  | AArray 0 _ => Err IndexError
  | AArray nd ws => if (1 <? nd) || negb (length ws =? d) then Err ValueError else Ok (MWeights ws)
  | AElse => Ok MOther
  end.

(** fit (hankeldmd.py:208-232): the delay matrix handed to the inner DMD and
    the time window after the fit.  [X] itself, not its unrolled copy, goes to
    the inner DMD; a sequence of snapshots has no [.T] there. *)
Definition hankel_fit (d : nat) (X : snap_input cell) : result (nd cell * times) :=
  let! s := snapshots X in
  match shape (fst s) with
  | [_; n] =>
      if n <? d then Err ValueError
      else let! H := match X with
                     | SArr a => hankel_pre d a
                     | SList _ => Err AttributeError
                     end in
           (* the inner fit needs two columns: snapshots.py:31-32 *)
           match shape H with
           | [_; c] => if c =? 1 then Err ValueError
                       else Ok (H, mkTimes 0 (inject_Z (Z.of_nat n - 1)) 1)
           | _ => Err ValueError
           end
  | _ => Err ValueError
  end.

(** ** HODMD (hodmd.py:97-109): data are unrolled first, projected with the
    map [proj] (rows -> rows'), and the reconstruction is lifted back with
    [lift], which acts on every column *)
Definition hodmd_fit (d : nat) (proj : nd cell -> nd cell) (X : snap_input cell) :
    result (nd cell * times) :=
  let! s := snapshots X in
  match shape (fst s) with
  | [_; n] =>
      if n <? d then Err ValueError
      else let! H := hankel_pre d (proj (fst s)) in
           match shape H with
           | [_; c] => if c =? 1 then Err ValueError
                       else Ok (H, mkTimes 0 (inject_Z (Z.of_nat n - 1)) 1)
           | _ => Err ValueError
           end
  | _ => Err ValueError
  end.
(** preprocessing/svd_projection.py:58-64 for the columns *)
Definition lift_cols (lift : (nat -> V) -> nat -> V) (n : nat) (R : nd V) : nd V :=
  match shape R with
  | [_; m] => mkNd [n; m] (fun idx => match idx with
                                       | [s; t] => lift (fun r => at_ R [r; t]) s
                                       | _ => at_ R idx end)
  | _ => R
  end.
(** hodmd.py:97-109 with hankeldmd.py:151-164 *)
Definition hodmd_reconstructed (lift : (nat -> V) -> nat -> V) (n : nat)
    (meth : rec_method) (d rows : nat) (inner : Qc -> nat -> cell)
    (orig dmd : times) : result (nd V) :=
  let! a := first_occurrence d orig dmd (tm_t0 dmd) in
  let! b := first_occurrence d orig dmd (tm_tend dmd) in
  let! k := floordiv (tm_t0 dmd - tm_t0 orig)%Q (tm_dt dmd) in
  let time_index := Z.min (Z.of_nat d - 1) k in
  let! Y := inner_reconstruction rows inner a b in
  let! R := hankel_post meth d Y in
  let! ts := timesteps (tm_t0 dmd) (tm_tend dmd) (tm_dt dmd) in
  Ok (slice_cols (lift_cols lift n R) time_index (time_index + Z.of_nat (length ts))).
End Hankel.
Arguments delay_table {M}. Arguments hankel_post {M}. Arguments hankel_reconstructed {M}.
Arguments hankel_fit {M}. Arguments hodmd_fit {M}. Arguments hodmd_reconstructed {M}.
Arguments ma_average {M}. Arguments avg_num {M}. Arguments avg_den {M}. Arguments delays {M}.
Arguments first_rec {M}. Arguments avg_rec {M}. Arguments filled {M}.
Arguments inner_reconstruction {M}. Arguments lift_cols {M}.
