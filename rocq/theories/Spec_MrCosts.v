(** * What C58 talks about, independently of the code *)
From mathcomp Require Import all_ssreflect all_fingroup all_algebra.
Set Implicit Arguments. Unset Strict Implicit. Unset Printing Implicit Defensive.
Import GRing.Theory Num.Theory.
Local Open Scope ring_scope.

Section SpecMr.
Variable C : numClosedFieldType.

(** the window centres [q] of a level and those of the first level, [axis]: neighbours of the first level are at most
    [h] apart, neighbours of the level at least 2h, and the first level reaches at least as far on both sides *)
Record spaced (h : C) (axis q : seq C) : Prop := Spaced {
  sp_pos : 0 < h;
  sp_axis : forall p, (p.+1 < size axis)%N -> nth 0 axis p.+1 - nth 0 axis p <= h;
  sp_q : forall k, (k.+1 < size q)%N -> h + h <= nth 0 q k.+1 - nth 0 q k;
  sp_first : nth 0 axis 0 <= nth 0 q 0;
  sp_last : nth 0 q (size q).-1 <= nth 0 axis (size axis).-1 }.

(** the global class of an eigenvalue [v] whose band in its own level is [j] (0: the slow one, handed to the next
    level): none if it is slow, otherwise the label [labels] that the clustering of [values] gave to that value *)
Definition class_of (values : seq C) (labels : seq nat) (v : C) (j : nat) (g : option nat) : Prop :=
  if j == 0%N then g = None
  else exists e, [/\ (e < size values)%N, nth 0 values e = v & g = Some (nth 0%N labels e)].
End SpecMr.
