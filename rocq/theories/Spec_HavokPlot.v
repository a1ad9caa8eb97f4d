(** HAVOK.plot_summary: the shapes fit leaves behind, and values of a curve by index. *)
From Coq Require Import List ZArith.
From Verif Require Import Py Model_HavokPlot.
Import ListNotations.
Set Implicit Arguments.

Section Spec.
Variable T : Type.
(** [m] embeddings, at least as many snapshots, as many times as snapshots *)
Record shapes (f : fitted T) (m : nat) : Prop := Shapes {
  sh_time : m <= length (ft_time f);
  sh_data : length (ft_data f) = length (ft_time f);
  sh_lin : forall c, In c (ft_lin f) -> length c = m;
  sh_forc : forall c, In c (ft_forc f) -> length c = m;
  sh_rec : forall c, In c (ft_rec f) -> length c = m;
  sh_first : ft_lin f <> [] }.
(** the values with indexes from [a] on and before [b] *)
Definition values (d : T) (l : list T) (a b : nat) : list T := map (fun i => nth i l d) (seq a (b - a)).
(** [x] is the item of [l] with index [i], counted from the end if [i] is negative *)
Definition chosen (A : Type) (l : list A) (i : Z) (x : A) : Prop := exists j, nth_error l j = Some x /\
  ((0 <= i)%Z /\ Z.of_nat j = i \/ (i < 0)%Z /\ Z.of_nat j = (Z.of_nat (length l) + i)%Z).
End Spec.
