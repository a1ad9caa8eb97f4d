(** Plots of one level of mrCOSTS: the shapes after fit. *)
From Coq Require Import List QArith.
From Verif Require Import Py Model_CostsPlot Model_MrCostsPlot.
Import ListNotations.
Set Implicit Arguments.

(** every level has at least one band and the shape of the data *)
Definition fitted_levels (levels : list level) (n t : nat) : Prop :=
  forall l inc, In l levels -> (0 < bands (l inc))%nat /\ points (l inc) = n /\ times (l inc) = t.
