(** * Model of BOPDMD.plot_mode_uq and BOPDMD.plot_eig_uq (pydmd/bopdmd.py:1631-1860)

    Exact arithmetic over a closed numeric field.  The result is what is drawn: values, places and the numbers in the titles.
    Colours, colour bars, axes, limits and legends are left out. *)
From mathcomp Require Import all_ssreflect all_algebra.
From Verif Require Import Py Model_Plot Model_Summary.
Set Implicit Arguments. Unset Strict Implicit. Unset Printing Implicit Defensive.
Import GRing.Theory Num.Theory.
Local Open Scope ring_scope.

Section UQ.
Variable C : numClosedFieldType.
(** np.argsort, bopdmd.py:1704 *)
Variable argsort : seq C -> seq nat.

(** what is read from the object: fitted, len(snapshots), eigs, amplitudes, modes by column, and modes_std (by column) with
    eigenvalues_std, both None unless bagging was done. bopdmd.py:1245-1263, 1681, 1685, 1702-1706, 1813, 1838 *)
Record uqdmd := UQDmd {
  uq_fitted : bool; uq_rows : nat; uq_eigs : seq C; uq_amps : seq C; uq_modes : seq (seq C);
  uq_std : option (seq (seq C) * seq C) }.

(** the argument plot_modes: None, an integer or a list of indexes. bopdmd.py:1642, 1686-1697 *)
Inductive which := WAll | WLead of int | WList of seq int.
(** the keyword arguments that matter, bopdmd.py:1631-1644.  d and cols: no negative ones. *)
Record uqargs := UQArgs {
  ua_x : option (seq C); ua_y : option (seq C); ua_d : nat; ua_shape : option (seq nat); ua_order : order; ua_cols : nat;
  ua_which : which; ua_pairs : bool }.

(** s[::2], bopdmd.py:1690, 1729 *)
Fixpoint every_other {T} (s : seq T) : seq T :=
  match s with a :: _ :: rest => a :: every_other rest | _ => s end.
(** bopdmd.py:1687-1692 *)
Definition leaders (r : nat) (pairs : bool) : seq nat :=
  if pairs then iota 0 r
  else if ~~ odd r then every_other (iota 0 r) else 0%N :: every_other (behead (iota 0 r)).
(** s[:k], bopdmd.py:1694 *)
Definition slice_to {T} (k : int) (s : seq T) : seq T :=
  match k with Posz n => take n s | Negz n => take (size s - n.+1) s end.
(** bopdmd.py:1686-1697: the indexes of the modes, and plot_conjugate_pairs as it is used below *)
Definition mode_indices (r : nat) (a : uqargs) : seq int * bool :=
  match ua_which a with
  | WAll => (map Posz (leaders r (ua_pairs a)), ua_pairs a)
  | WLead k => (map Posz (slice_to k (leaders r (ua_pairs a))), ua_pairs a)
  | WList l => (l, true)
  end.

(** modes[:, idx], bopdmd.py:1739-1740 *)
Definition at_index (n : nat) (z : int) : result nat :=
  match z with
  | Posz i => if (i < n)%N then Ok i else Err IndexError
  | Negz i => if (i < n)%N then Ok (n - i.+1)%N else Err IndexError
  end.

(** bopdmd.py:1723: the number of rows of subplots *)
Definition grid_rows (n cols : nat) : nat := (2 * ((n + cols.-1) %/ cols))%N.
(** np.arange(rows * cols).reshape(rows, cols), bopdmd.py:1726 *)
Definition all_inds (rows cols : nat) : seq (seq nat) := [seq [seq (i * cols + j)%N | j <- iota 0 cols] | i <- iota 0 rows].
(** bopdmd.py:1730 *)
Definition avg_inds (rows cols : nat) : seq nat := flatten (every_other (all_inds rows cols)).
(** bopdmd.py:1734: all_inds[1::2].flatten() *)
Definition std_inds (rows cols : nat) : seq nat := flatten (every_other (behead (all_inds rows cols))).

(** the two subplots of one mode: the numbers in the title, the numbers of the subplots, the rows that are drawn.
    bopdmd.py:1738-1776 *)
Record uq_panel := UPanel {
  up_title : seq int; up_place : nat; up_dev_place : nat; up_rows : seq (seq C); up_dev : seq (seq C) }.

(** plt.plot or plt.pcolormesh, bopdmd.py:1749-1760, 1765-1776: plt.plot wants as many values as x; without a grid the name
    xgrid is unbound *)
Definition draw_values (dims nx ny : nat) (o : order) (v : seq C) : result (seq (seq C)) :=
  if dims == 1%N then (if nx == size v then Ok [:: v] else Err ValueError)
  else if dims == 2%N then reshape2 o ny nx v else Err UnboundLocalError.

(** bopdmd.py:1631-1780: plot_mode_uq *)
Definition plot_mode_uq (u : uqdmd) (a : uqargs) : result (seq uq_panel) :=
  if ~~ uq_fitted u then Err ValueError else
  match uq_std u with
  | None => Err ValueError
  | Some (mstd, _) =>
      let r := size (uq_modes u) in
      let '(idx, pairs) := mode_indices r a in
      let! shape := match ua_shape a with
                    | Some s => Ok s
                    | None => if ua_d a == 0%N then Err ZeroDivisionError else Ok [:: (uq_rows u %/ ua_d a)%N]
                    end in
      let o := argsort [seq - `|z| | z <- uq_amps u] in
      let modes := pick [::] (uq_modes u) o in
      let devs := pick [::] mstd o in
      let! nx := match ua_x a, shape with
                 | Some x, _ => Ok (size x)
                 | None, w :: _ => Ok w
                 | None, [::] => Err IndexError
                 end in
      let ny := if ua_y a is Some y then size y else nth 0%N shape 1%N in
      let! modes := average_modes (ua_d a) modes in
      let! devs := average_modes (ua_d a) devs in
      if ua_cols a == 0%N then Err ZeroDivisionError else
      let rows := grid_rows (size idx) (ua_cols a) in
      panels (fun i =>
        let z := nth 0 idx i in
        let! k := at_index (size modes) z in
        let! m := draw_values (size shape) nx ny (ua_order a) (nth [::] modes k) in
        let! s := draw_values (size shape) nx ny (ua_order a) (nth [::] devs k) in
        Ok (UPanel (if pairs || (odd r && (i == 0%N)) then [:: z + 1] else [:: z + 1; z + 2])
              (nth 0%N (avg_inds rows (ua_cols a)) i + 1) (nth 0%N (std_inds rows (ua_cols a)) i + 1)
              [seq [seq 'Re w | w <- row] | row <- m] s)) (iota 0 (size idx))
  end.

(** the eigenvalue picture: circles with centre and radius, points, true eigenvalues. bopdmd.py:1838-1852 *)
Record eig_uq := EigUQ { eu_circles : seq (C * C); eu_points : seq C; eu_truth : option (seq C) }.
(** bopdmd.py:1782-1860: plot_eig_uq *)
Definition plot_eig_uq (u : uqdmd) (truth : option (seq C)) (flip_axes : bool) : result eig_uq :=
  if ~~ uq_fitted u then Err ValueError else
  match uq_std u with
  | None => Err ValueError
  | Some (_, std) =>
      let turn := fun s => if flip_axes then map (@flip C) s else s in
      let eigs := turn (uq_eigs u) in
      Ok (EigUQ (flatten [seq [:: (p.1, 2%:R * p.2); (p.1, p.2)] | p <- zip eigs std]) eigs (omap turn truth))
  end.
End UQ.
