(** * What the uncertainty plots of BOPDMD should show *)
From mathcomp Require Import all_ssreflect all_algebra.
From Verif Require Import Py Model_Plot Model_Summary Spec_Summary Model_UQ.
Set Implicit Arguments. Unset Strict Implicit. Unset Printing Implicit Defensive.
Import GRing.Theory Num.Theory.
Local Open Scope ring_scope.

Section Spec.
Variable C : numClosedFieldType.

(** an object after a fit with bagging: one mode, amplitude and deviation per eigenvalue *)
Definition bagged (u : uqdmd C) (mstd : seq (seq C)) (estd : seq C) : Prop :=
  [/\ uq_fitted u, uq_std u = Some (mstd, estd), size (uq_modes u) = size (uq_eigs u)
    & [/\ size (uq_amps u) = size (uq_eigs u), size mstd = size (uq_eigs u) & size estd = size (uq_eigs u)]].

(** the numbers of the modes asked for, the most significant one being 0: all of them, or without conjugates every second one,
    the first one on its own when there is an odd number of them *)
Definition asked (r : nat) (a : uqargs C) : seq int :=
  let all_ := [seq i <- iota 0 r | ua_pairs a || (i == 0%N) || (odd i == odd r)] in
  match ua_which a with
  | WAll => map Posz all_
  | WLead (Posz n) => map Posz (take n all_)
  | WLead (Negz n) => map Posz (take (size all_ - n.+1) all_)
  | WList l => l
  end.
(** number z counted from the start, or from the end if it is negative *)
Definition counted (r : nat) (z : int) (k : nat) : Prop := (k < r)%N /\ (z = k%:Z \/ z = k%:Z - r%:Z).

(** the values of a mode at the points of the grid: its mean over the delays *)
Definition values (d : nat) (v : seq C) : seq C :=
  if (1 < d)%N then [seq delay_mean d v i | i <- iota 0 (size v %/ d)] else v.
(** the pictures of a list of values: a line, or w columns and h rows *)
Definition pictured (a : uqargs C) (v : seq C) (rows : seq (seq C)) : Prop :=
  (ua_shape a = None -> rows = [:: v]) /\
  forall w h, ua_shape a = Some [:: w; h] -> ua_x a = None -> ua_y a = None -> [/\ size rows = h, size v = (h * w)%N
    & forall p q, (p < h)%N -> (q < w)%N -> size (nth [::] rows p) = w /\
        nth 0 (nth [::] rows p) q = nth 0 v (if ua_order a is OrderF then p + q * h else p * w + q)%N].

(** the place of an eigenvalue *)
Definition spot (flip_axes : bool) (z : C) : C := if flip_axes then 'Im z + 'i * 'Re z else z.
End Spec.
