(** * What C43 asks of a window layout, independently of the code *)
From Coq Require Import ZArith List.
Import ListNotations.
Local Open Scope nat_scope.

(** the wanted layout of windows of length [wl] moved by [step] along [times] time steps: window [k] starts
    at [k * step], except the last one, which ends with the data *)
Record tiling (times wl step : nat) (windows : list (list nat)) : Prop := Tiling {
  some_window : windows <> [];
  (* window k is the run of wl consecutive time steps starting at k * step, or at the end of the data *)
  each_window : forall k ws, nth_error windows k = Some ws ->
    ws = seq (Nat.min (k * step) (times - wl)) wl;
  (* only the last window ends with the data *)
  last_window : forall k, k < length windows ->
    (Nat.min (k * step) (times - wl) = times - wl <-> k = length windows - 1) }.

Definition covered (windows : list (list nat)) (s : nat) : Prop := exists ws, In ws windows /\ In s ws.
