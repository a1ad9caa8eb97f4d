(** The plots of COSTS: which numbers are drawn in which panel, and the colour limits. Models pydmd/costs.py:254-265, 857-927, 1047-1432.
    Simplifications: numbers are real and rational; arrays are functions of their indexes with separate sizes, and the data has the
    shape of the reconstruction; the reconstruction of the bands is given (Model_Costs.v models it); titles, contours, labels and
    figure arguments are left out. *)
From Coq Require Import List ZArith QArith Qabs Qminmax String Bool Arith.
From Verif Require Import Py.
Import ListNotations.
Set Implicit Arguments.
Open Scope nat_scope.
Open Scope string_scope.

(** the sum of [f 0 .. f (n-1)] (xr_sep.sum(axis=0) and data.mean, costs.py:1043, 1265, 1350, 1369) *)
Fixpoint qsum (n : nat) (f : nat -> Q) : Q := match n with 0 => 0%Q | S n => (qsum n f + f n)%Q end.
(** What scale_reconstruction returns: bands, points, times and values (costs.py:1041, 1194, 1357) *)
Record sep := Sep { bands : nat; points : nat; times : nat; xr : nat -> nat -> nat -> Q }.
(** xr_sep.sum(axis=0) (costs.py:1265, 1369, 1413) *)
Definition total (s : sep) (i t : nat) : Q := qsum (bands s) (fun n => xr s n i t).
(** xr_sep[1:].sum(axis=0) (costs.py:1043, 1382, 1405) *)
Definition high (s : sep) (i t : nat) : Q := qsum (bands s - 1) (fun n => xr s (S n) i t).

(** plot_time_series: the curves of the first panel (black, red), of the second one (black), of the bands, and of the last panel
    (costs.py:1366-1415) *)
Record series := Series {
  ts_black : nat -> Q; ts_red : nat -> Q; ts_second : nat -> Q; ts_bands : list (nat -> Q);
  ts_last_black : nat -> Q; ts_last_high : nat -> Q; ts_last_low : nat -> Q; ts_residual : option (nat -> Q) }.
(** an index into [n] points (costs.py:1352-1353, 1369) *)
Definition wrap (i : Z) (n : nat) : result nat :=
  if ((0 <=? i) && (i <? Z.of_nat n))%Z then Ok (Z.to_nat i)
  else if ((- Z.of_nat n <=? i) && (i <? 0))%Z then Ok (Z.to_nat (Z.of_nat n + i)) else Err IndexError.
(** costs.py:1324-1432, on a fitted and clustered object *)
Definition plot_time_series (s : sep) (idx : Z) (data : nat -> nat -> Q) (residual : bool) : result series :=
      let! i := wrap idx (points s) in
      let mean := (qsum (times s) (data i) / inject_Z (Z.of_nat (times s)))%Q in
      let truth := fun t => (data i t - mean)%Q in
      Ok (Series truth (fun t => total s i t - mean)%Q (fun t => truth t - high s i t)%Q
            (map (fun n t => if Nat.eqb n 0 then (xr s n i t - mean)%Q else xr s n i t) (seq 0 (bands s)))
            truth (high s i) (fun t => xr s 0 i t - mean)%Q
            (if residual then Some (fun t => truth t - total s i t)%Q else None)).

(** Values in plot_kwargs, and the dictionary (costs.py:1097-1111) *)
Inductive opt := Num (q : Q) | Name (s : string).
Definition dict := list (string * opt).
(** d.get(k) *)
Fixpoint get (k : string) (d : dict) : option opt :=
  match d with [] => None | (k', v) :: r => if String.eqb k k' then Some v else get k r end.
(** d[k] = d.get(k, v) (costs.py:1099-1101, 1105-1111) *)
Definition default (k : string) (v : opt) (d : dict) : dict := match get k d with Some _ => d | None => (d ++ [(k, v)])%list end.
(** all values of an array of [n] by [t] *)
Definition cells (n t : nat) (m : nat -> nat -> Q) : list Q := flat_map (fun i => map (m i) (seq 0 t)) (seq 0 n).
(** np.abs(a).max() (costs.py:1099-1100, 1106, 1215); of an empty array it raises ValueError *)
Definition amax (l : list Q) : result Q :=
  match l with [] => Err ValueError | _ => Ok (fold_right (fun x y => Qmax (Qabs x) y) 0%Q l) end.
(** the colour limits (costs.py:1097-1111, 1205-1220): the defaults are computed even if they are not used *)
Definition limits (a : result Q) (cmap : string) (d : option dict) : result dict :=
  let! q := a in
  Ok (default "cmap" (Name cmap) (default "vmax" (Num q) (default "vmin" (Num (- q)) (match d with Some d => d | None => [] end)))).

(** A panel: its values and its limits (costs.py:1119, 1132, 1139, 1145) *)
Record panel := Panel { pn_values : nat -> nat -> Q; pn_limits : dict }.
(** What a plot leaves behind: its panels, and the dictionaries of the caller, which it has changed (costs.py:1099-1111) *)
Record drawn := Drawn { dr_panels : list panel; dr_plot : option dict; dr_hf : option dict }.
(** the dictionary of the caller after the call *)
Definition after (d : option dict) (d' : dict) : option dict := match d with Some _ => Some d' | None => None end.

(** costs.py:1047-1153 *)
Definition plot_scale_separation (s : sep) (data : nat -> nat -> Q) (residual : bool) (pk hk : option dict) : result drawn :=
      if Nat.eqb (bands s) 0 then Err IndexError
      else
        let! pk' := limits (amax (cells (points s) (times s) data)) "cividis" pk in
        let! hk' := limits (amax (cells (points s) (times s) (high s))) "RdBu_r" hk in
        Ok (Drawn (Panel data pk' :: Panel (xr s 0) pk' :: Panel (high s) hk' ::
                   if residual then [Panel (fun i t => data i t - high s i t - xr s 0 i t)%Q hk'] else [])
                  (after pk pk') (after hk hk')).
(** costs.py:1155-1271 *)
Definition plot_reconstructions (s : sep) (data : nat -> nat -> Q) (residual : bool) (pk hk : option dict) : result drawn :=
      let! pk' := limits (amax (cells (points s) (times s) data)) "cividis" pk in
      let! hk' := limits (amax (flat_map (fun n => cells (points s) (times s) (xr s n)) (seq 1 (bands s - 1)))) "RdBu_r" hk in
      Ok (Drawn (Panel data pk' :: (map (fun n => Panel (xr s n) (if Nat.eqb n 0 then pk' else hk')) (seq 0 (bands s))
                 ++ if residual then [Panel (fun i t => data i t - total s i t)%Q hk'] else []))%list
                (after pk pk') (after hk hk')).
(** plot_error: the values drawn where the data is not 0; it returns None (costs.py:1273-1322) *)
Definition percent (s : sep) (data : nat -> nat -> Q) (i t : nat) : Q := ((total s i t - data i t) / data i t * 100)%Q.

(** periods: omega_array by its imaginary parts, omega_classes by its labels; [tau] is 2 pi, an infinite period is [None]
    (costs.py:254-265) *)
Definition periods (tau : Q) (omega : option (list (list Q))) (classes : option (list (list nat))) : result (list (option Q)) :=
  match omega, classes with
  | None, _ => Err ValueError
  | Some _, None => Err TypeError
  | Some w, Some c =>
      Ok (map (fun p => if Qeq_bool (fst p) 0 then None else Some (tau / Qabs (fst p))%Q)
            (filter (fun p => Nat.ltb 0 (snd p)) (combine (List.concat w) (List.concat c))))
  end.

(** plot_omega_time_series: for each band, by window and mode, the transformed eigenvalues, and nothing (NaN) for the entries of other
    bands. The array is flattened, transformed and shaped again; [tr] is the transformation of one value, [rank] the number of
    columns (costs.py:903-922). *)
Definition omega_series (T : Type) (tr : T -> Q) (nb rank : nat) (omega : list (list T)) (cls : nat -> nat -> nat) : list (nat -> nat -> option Q) :=
  map (fun b k j => if Nat.eqb (cls k j) b then nth_error (map tr (List.concat omega)) (k * rank + j) else None) (seq 0 nb).
(** the colour of a band in both plots of the eigenvalues: colors[n % len(colors)] (costs.py:885, 919) *)
Definition band_color (K : Type) (colors : list K) (n : nat) : result K :=
  if Nat.eqb (List.length colors) 0 then Err ZeroDivisionError
  else match nth_error colors (n mod List.length colors) with Some c => Ok c | None => Err IndexError end.
(** the lines of the centroids, numbered from [n] (costs.py:884-887) *)
Fixpoint centroid_lines (K : Type) (colors : list K) (n : nat) (cent : list Q) : result (list (Q * K)) :=
  match cent with
  | [] => Ok []
  | c :: l => let! k := band_color colors n in let! r := centroid_lines colors (S n) l in Ok ((c, k) :: r)
  end.
(** plot_omega_histogram: the values counted and the lines, after clustering (costs.py:857-889); 64 bins, done by matplotlib *)
Definition omega_histogram (T K : Type) (tr : T -> Q) (colors : list K) (omega : list (list T)) (cent : list Q) : result (list Q * list (Q * K)) :=
  let! l := centroid_lines colors 0 cent in Ok (map tr (List.concat omega), l).
