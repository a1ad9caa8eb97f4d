(** * Model of the plots of eigenvalues, modes and snapshots (pydmd/plotter.py)
    Numbers are the rationals that finite floats denote, without rounding.  A plot is what is drawn and where: series of
    points, axis limits, coloured cells.  Titles, legends' looks, arrows, circles and grids are left out. *)
From Coq Require Import List ZArith Bool Arith QArith Qround String DecimalString.
From Verif Require Import Py Model_MrDMD.
Import ListNotations.
Local Open Scope nat_scope.

(** max(l) of Python, of an empty sequence a ValueError. plotter.py:67, 70 *)
Definition py_max (l : list Q) : result Q :=
  match l with
  | [] => Err ValueError
  | a :: t => Ok (fold_left (fun m x => if Qle_bool x m then m else x) t a)
  end.
(** min(l). plotter.py:68, 71 *)
Definition py_min (l : list Q) : result Q :=
  match l with
  | [] => Err ValueError
  | a :: t => Ok (fold_left (fun m x => if Qle_bool m x then m else x) t a)
  end.

(** Limits of the axes, in the order of plotter.py:62: supx, infx, supy, infy *)
Record limits := Lim { supx : Q; infx : Q; supy : Q; infy : Q }.

(** plotter.py:24-62: _enforce_ratio *)
Definition enforce_ratio (goal : Q) (l : limits) : result limits :=
  let dx0 := (supx l - infx l)%Q in
  let dx := if Qeq_bool dx0 0 then (1 # 10000000000000000)%Q else dx0 in
  let dy0 := (supy l - infy l)%Q in
  let dy := if Qeq_bool dy0 0 then (1 # 10000000000000000)%Q else dy0 in
  let ratio := ((if Qle_bool dy dx then dx else dy) / (if Qle_bool dx dy then dx else dy))%Q in
  if Qle_bool goal ratio then
    if negb (Qle_bool dy dx) then
      if Qeq_bool goal 0 then Err ZeroDivisionError else
      let goal_size := (dy / goal)%Q in
      Ok (Lim (supx l + (goal_size - dx) / 2) (infx l - (goal_size - dx) / 2) (supy l) (infy l))
    else if negb (Qle_bool dx dy) then
      if Qeq_bool goal 0 then Err ZeroDivisionError else
      let goal_size := (dx / goal)%Q in
      Ok (Lim (supx l) (infx l) (supy l + (goal_size - dy) / 2) (infy l - (goal_size - dy) / 2))
    else Ok l
  else Ok l.

Section Eigs.
(** an eigenvalue with its real and imaginary part, plotter.py:124 *)
Context {E : Type} (re im : E -> Q).

(** np.ceil(np.absolute(z)): the least integer whose square is not below re^2 + im^2. plotter.py:74, 272 *)
Definition ceil_abs (z : E) : Z := Z.sqrt_up (Qceiling (re z * re z + im z * im z)).

(** np.max(np.ceil(np.absolute(eigs))), plotter.py:74, 272 *)
Definition max_ceil (eigs : list E) : result Q := py_max (map (fun z => inject_Z (ceil_abs z)) eigs).

(** plotter.py:65-73: _plot_limits with narrow_view *)
Definition narrow_limits (eigs : list E) : result limits :=
  let! sx := py_max (map re eigs) in
  let! ix := py_min (map re eigs) in
  let! sy := py_max (map im eigs) in
  let! iy := py_min (map im eigs) in
  enforce_ratio 8 (Lim (sx + (1 # 20)) (ix - (1 # 20)) (sy + (1 # 20)) (iy - (1 # 20))).

(** What an eigenvalue plot shows: the series of points, the number in the label of each, the limits.
    plotter.py:124-156, 246-274, 308-312 *)
Record eig_plot := EPlot { ep_series : list (list E); ep_labels : list nat; ep_limits : limits }.

(** plotter.py:77-209: plot_eigs; [is_mr]: the object is an MrDMD; None: it has not been fitted.  The only series has the
    label Eigenvalues, without a number. *)
Definition plot_eigs (is_mr : bool) (eigs : option (list E)) (narrow : bool) : result eig_plot :=
  if is_mr then Err ValueError else
  match eigs with
  | None => Err ValueError
  | Some eigs =>
      let! l := if narrow then narrow_limits eigs
                else let! m := max_ceil eigs in Ok (Lim m (- m) m (- m)) in
      Ok (EPlot [eigs] [] l)
  end.

(** plotter.py:212-322: plot_eigs_mrdmd of a fitted MrDMD; [level], [node] are not negative *)
Definition plot_eigs_mrdmd {W : vspace} {cfg : Type} (m : mrdmd W E cfg) (level node : option nat) : result eig_plot :=
  let t := mr_tree W E cfg m in
  let! all := mr_eigs W E cfg m in
  let truthy := match level with Some (S l) => Some (S l) | _ => None end in
  let! peigs := match truthy with
                | Some l => partial_eigs W E cfg t l node
                | None => Ok all
                end in
  let! points := match truthy with
                 | None => over_levels (fun l => partial_eigs W E cfg t l None) (bt_levels t)
                 | Some _ => Ok [peigs]
                 end in
  let! limit := max_ceil peigs in
  let labels := match truthy with Some l => [l] | None => seq 0 (List.length points) end in
  Ok (EPlot points labels (Lim limit (- limit) limit (- limit))).
End Eigs.

(** ** plot_modes_2D and plot_snapshots_2D *)
(** the [order] argument, plotter.py:332, 450 *)
Inductive order := OrderC | OrderF | OrderA.

(** np.meshgrid(x, y): row p holds the points (x[q], y[p]). plotter.py:388, 503 *)
Definition meshgrid {A} (x y : list A) : list (list (A * A)) := map (fun b => map (fun a => (a, b)) x) y.

(** the entries of v at the given positions. plotter.py:405, 517 *)
Definition take_at {T} (v : list T) (ps : list nat) : list T :=
  flat_map (fun p => match nth_error v p with Some a => [a] | None => [] end) ps.

(** v.reshape((ny, nx), order) of a one-dimensional array: a vector is never Fortran contiguous only, so "A" is "C".
    plotter.py:405, 517 *)
Definition reshape2 {T} (o : order) (ny nx : nat) (v : list T) : result (list (list T)) :=
  if List.length v =? ny * nx then
    Ok (map (fun p => take_at v (map (fun q => match o with
                                               | OrderF => p + q * ny
                                               | _ => p * nx + q
                                               end) (seq 0 nx))) (seq 0 ny))
  else Err ValueError.

(** the [index_mode], [index_snap] argument, plotter.py:390-393, 505-508 *)
Inductive index_arg := AllIdx | OneIdx (i : Z) | SeqIdx (l : list Z).

(** a[i] on a list, with Python's negative indexes. plotter.py:405, 517 *)
Definition py_nth {T} (l : list T) (i : Z) : result T :=
  let n := Z.of_nat (List.length l) in
  let j := if (i <? 0)%Z then (i + n)%Z else i in
  if ((j <? 0) || (n <=? j))%Z then Err IndexError
  else match nth_error l (Z.to_nat j) with Some a => Ok a | None => Err IndexError end.

(** one figure: the cells of pcolor, each a point of the grid with its value. plotter.py:407-421, 519-525 *)
Definition figure (T : Type) := list (list ((Q * Q) * T)).

(** plotter.py:398-440, 513-534: the loop over the figures *)
Fixpoint figures {T} (o : order) (grid : list (list (Q * Q))) (ny nx : nat) (cols : list (list T)) (idx : list Z)
  : result (list (Z * figure T)) :=
  match idx with
  | [] => Ok []
  | i :: rest =>
      let! v := py_nth cols i in
      let! a := reshape2 o ny nx v in
      let! r := figures o grid ny nx cols rest in
      Ok ((i, map (fun gr => combine (fst gr) (snd gr)) (combine grid a)) :: r)
  end.

(** plotter.py:325-440: plot_modes_2D and plotter.py:443-534: plot_snapshots_2D, which differ in the columns (modes, real
    parts of the snapshots) and in the messages.  [cols]: None before a fit; [shape]: the argument, [own]: the object's
    snapshots_shape.  [xy]: both axes or none of them; giving only one is left out. *)
Definition plot_2D {T} (cols : option (list (list T))) (shape own : option (list nat)) (xy : option (list Q * list Q))
  (o : order) (index : index_arg) : result (list (Z * figure T)) :=
  match cols with
  | None => Err ValueError
  | Some cols =>
      let shape := match shape with None => own | s => s end in
      let! axes := match xy with
                   | Some a => Ok a
                   | None => match shape with
                             | None => Err ValueError
                             | Some [a; b] => Ok (map (fun k => inject_Z (Z.of_nat k)) (seq 0 a),
                                                  map (fun k => inject_Z (Z.of_nat k)) (seq 0 b))
                             | Some _ => Err ValueError
                             end
                   end in
      let grid := meshgrid (fst axes) (snd axes) in
      let idx := match index with
                 | AllIdx => map Z.of_nat (seq 0 (List.length cols))
                 | OneIdx i => [i]
                 | SeqIdx l => l
                 end in
      figures o grid (List.length (snd axes)) (List.length (fst axes)) cols idx
  end.

(** the name of the file of one figure, plotter.py:436, 530 *)
Definition figure_name (basename ext : string) (idx : Z) : string :=
  (basename ++ "." ++ NilZero.string_of_int (Z.to_int idx) ++ ext)%string.
