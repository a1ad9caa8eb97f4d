(** * COSTS (costs.py): window layout

    Integers are Python integers.  [fl T w] stands for [int(w * (T / w))] computed in floating point. *)
From Coq Require Import ZArith List Bool.
From Verif Require Import Py.
Import ListNotations.
Local Open Scope Z_scope.

(** the attributes of a COSTS object that describe its windows (costs.py:89-122: None before the first fit) *)
Record wins := Wins {
  w_length : option Z;      (* _window_length *)
  w_step : option Z;        (* _step_size *)
  w_times : option Z;       (* _n_time_steps *)
  w_vars : option Z;        (* _n_data_vars *)
  w_slides : option Z;      (* _n_slides *)
  w_nonint : option bool }. (* _non_integer_n_slide *)
(** costs.py:89-122 *)
Definition no_wins : wins := Wins None None None None None None.

Section Win.
Variable fl : Z -> Z -> Z.

(** _build_windows (costs.py:281-307).  The quotient of line 305 is rounded down exactly
    (simplification: its floating-point value is exact enough below 2^53). *)
Definition build_windows (times wl step : Z) (integer_windows : bool) : result Z :=
  if wl =? 0 then Err ZeroDivisionError
  else let n_steps := if integer_windows then wl * (times / wl) else fl times wl in
       if step =? 0 then Err ZeroDivisionError else Ok ((n_steps - wl) / step + 1).

(** the first part of fit (costs.py:456-488): the object afterwards, and whether an exception was raised.
    [vars], [times] is the shape of the data, [tsize] the number of time instants. *)
Definition fit_windows (s : wins) (vars times tsize wl step : Z) : wins * result unit :=
  let s1 := Wins (Some wl) (Some step) (Some times) (Some vars) (w_slides s) (w_nonint s) in
  if negb (times =? tsize) then (s1, Err ValueError)
  else match build_windows times wl step false with
       | Err e => (s1, Err e)
       | Ok n =>
           let s2 := Wins (Some wl) (Some step) (Some times) (Some vars) (Some n) (w_nonint s) in
           if times <? wl then (s2, Err ValueError)
           else if 0 <? times - (step * (n - 1) + wl)
                then (Wins (Some wl) (Some step) (Some times) (Some vars) (Some (n + 1)) (Some true), Ok tt)
                else (Wins (Some wl) (Some step) (Some times) (Some vars) (Some n) (Some false), Ok tt)
       end.

(** get_window_indices (costs.py:615-630) *)
Definition get_window_indices (s : wins) (k : Z) : result pyslice :=
  match w_step s, w_length s, w_slides s with
  | Some step, Some wl, Some n =>
      if (k =? n - 1) && match w_nonint s with Some b => b | None => false end
      then Ok (mkSlice (Some (- wl)) None None)
      else Ok (mkSlice (Some (step * k)) (Some (step * k + wl)) None)
  | _, _, _ => Err TypeError
  end.

(** the time steps of window k: [data[:, get_window_indices(k)]] on [times] columns. costs.py:558-559 *)
Definition window (s : wins) (k : nat) : result (list nat) :=
  match w_times s with
  | Some t => let! sl := get_window_indices s (Z.of_nat k) in slice_positions (Z.to_nat t) sl
  | None => Err TypeError
  end.
End Win.
