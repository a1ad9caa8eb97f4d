(** The plots of one level of mrCOSTS: which data they take, and what they draw. Models pydmd/mrcosts.py:592-776, and which data
    the fit gives to each level, mrcosts.py:304-355. Simplifications: those of Model_CostsPlot.v; a fitted level is the reconstruction
    of its bands, with or without the window means (include_means), the only option of scale_reconstruction. *)
From Coq Require Import List ZArith QArith String Bool Arith.
From Verif Require Import Py Model_CostsPlot.
Import ListNotations.
Set Implicit Arguments.
Open Scope nat_scope.

(** A fitted level: scale_reconstruction(include_means) (mrcosts.py:613, 653-657) *)
Definition level := bool -> sep.
(** An array with its shape (mrcosts.py:602-603, 615) *)
Record array := Array { a_rows : nat; a_cols : nat; a_val : nat -> nat -> Q }.
(** costs_array[k].scale_separation()[0] (mrcosts.py:613, 351-354; costs.py:1041-1042) *)
Definition low (l : level) (inc : bool) : result array :=
  if Nat.eqb (bands (l inc)) 0 then Err IndexError else Ok (Array (points (l inc)) (times (l inc)) (xr (l inc) 0)).
(** costs_array[i] (mrcosts.py:613, 653, 694, 733, 769) *)
Definition at_level (levels : list level) (i : Z) : result level :=
  let! k := wrap i (List.length levels) in match nth_error levels k with Some l => Ok l | None => Err IndexError end.
(** the data that fit gives to level [k]; [inc]: the include_means of costs_recon_kwargs (mrcosts.py:304-355) *)
Definition fit_input (levels : list level) (inc : bool) (data : array) (k : nat) : result array :=
  match k with
  | 0 => Ok data
  | S k => match nth_error levels k with Some l => low l inc | None => Err IndexError end
  end.
(** _plot_helper_data_check (mrcosts.py:592-618); [n] and [t]: the shape stored by fit *)
Definition plot_input (levels : list level) (n t : nat) (i : Z) (data : option array) : result array :=
  let! x := match data with
            | Some x => Ok x
            | None => if (i =? 0)%Z then Err ValueError
                      else if (0 <? i)%Z then let! l := at_level levels (i - 1) in low l true
                      else Err UnboundLocalError
            end in
  if Nat.eqb (a_rows x) n && Nat.eqb (a_cols x) t then Ok x else Err ValueError.
(** plot_local_scale_separation (mrcosts.py:703-740) *)
Definition local_separation (levels : list level) (n t : nat) (i : Z) (data : option array) (pk : option dict) (inc : bool) : result drawn :=
  let! x := plot_input levels n t i data in
  let! l := at_level levels i in
  plot_scale_separation (l inc) (a_val x) false pk None.
(** plot_local_reconstructions, with the residual and the limits of its kwargs (mrcosts.py:620-659) *)
Definition local_reconstructions (levels : list level) (n t : nat) (i : Z) (data : option array) (r : bool) (pk hk : option dict) (inc : bool)
    : result drawn :=
  let! x := plot_input levels n t i data in
  let! l := at_level levels i in
  plot_reconstructions (l inc) (a_val x) r pk hk.
(** plot_local_time_series (mrcosts.py:742-776) *)
Definition local_series (levels : list level) (n t : nat) (space i : Z) (data : option array) (inc : bool) : result series :=
  let! x := plot_input levels n t i data in
  let! l := at_level levels i in
  plot_time_series (l inc) space (a_val x) false.
(** plot_local_error: the values drawn where the data is not 0 (mrcosts.py:661-701) *)
Definition local_error (levels : list level) (n t : nat) (i : Z) (data : option array) (inc : bool) : result (nat -> nat -> Q) :=
  let! x := plot_input levels n t i data in
  let! l := at_level levels i in
  Ok (percent (l inc) (a_val x)).
