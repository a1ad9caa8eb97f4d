(** * Model of plot_summary (pydmd/plotter.py:537-967)

    Exact arithmetic over a closed numeric field.  The result is what is drawn in the nine panels: values, places and
    colours.  Titles, legends, marker edges, colour bars and spacing are left out. *)
From mathcomp Require Import all_ssreflect all_algebra.
From Verif Require Import Py Model_Plot.
Set Implicit Arguments. Unset Strict Implicit. Unset Printing Implicit Defensive.
Import GRing.Theory Num.Theory.
Local Open Scope ring_scope.

Section Summary.
Variable C : numClosedFieldType.
(** colours, plotter.py:553-558 *)
Variable K : Type.

(** what is used from outside: np.argsort, np.exp, np.log, np.allclose(steps, dt). plotter.py:710, 728, 735, 764, 767 *)
Record sext := SExt { e_argsort : seq C -> seq nat; e_exp : C -> C; e_log : C -> C; e_close : seq C -> C -> bool }.
Variable ex : sext.

(** what is read from the DMD object: is it a HAVOK, a BOPDMD (or a wrapped one); modes by column, None before a fit;
    eigs, amplitudes, dynamics by row; BOPDMD's time; the shape of the snapshots, None after fit_econ;
    original_timesteps and original_time["dt"], None when the object has none; the singular values of the snapshots (of
    ho_snapshots for a HankelDMD) or those stored by fit_econ.  plotter.py:672-676, 681, 691, 710-794 *)
Record sdmd := SDmd {
  sd_havok : bool; sd_bop : bool; sd_modes : option (seq (seq C)); sd_eigs : seq C; sd_amps : seq C;
  sd_dyn : seq (seq C); sd_time : seq C; sd_snap : option (nat * nat); sd_orig : option (seq C * C);
  sd_svals : option (seq C) }.

(** the argument t: a number, an array or None. plotter.py:740-751 *)
Inductive targ := TNone | TNum of C | TArr of seq C.

(** the keyword arguments that matter, plotter.py:537-565.  index_modes: indexes below zero are left out. *)
Record sargs := SArgs {
  sa_x : option (seq C); sa_y : option (seq C); sa_t : targ; sa_d : nat; sa_cont : bool; sa_shape : option (seq nat);
  sa_index : seq nat; sa_order : order; sa_main : seq K; sa_rank_colour : K; sa_ms : C; sa_max : nat; sa_flip : bool }.

(** a[order]: plotter.py:711-714 *)
Definition pick {T} (d : T) (s : seq T) (o : seq nat) : seq T := [seq nth d s i | i <- o].

(** np.diff as written at plotter.py:729, 746 *)
Definition steps (t : seq C) : seq C := [seq p.2 - p.1 | p <- zip t (behead t)].
(** time[1] - time[0], plotter.py:728, 745 *)
Definition first_step (t : seq C) : result C :=
  if t is a :: b :: _ then Ok (b - a) else Err IndexError.

(** plotter.py:716-767: time axis, discrete-time eigenvalues (None when the steps of BOPDMD differ), continuous-time ones *)
Definition conversions (dmd : sdmd) (a : sargs) (lead : seq C) : result (seq C * option (seq C) * seq C) :=
  if sd_bop dmd then
    let! dt := first_step (sd_time dmd) in
    Ok (sd_time dmd,
        (if e_close ex (steps (sd_time dmd)) dt then Some [seq e_exp ex (z * dt) | z <- lead] else None),
        lead)
  else
    let! n := if sd_snap dmd is Some (_, n) then Ok n else Err AttributeError in
    let! td := match sa_t a with
               | TNum t => Ok ([seq i%:R * t | i <- iota 0 n], t)
               | TArr t => let! dt := first_step t in Ok (t, dt)
               | TNone => Ok (if sd_orig dmd is Some o then o else ([seq i%:R | i <- iota 0 n], 1))
               end in
    if sa_cont a then Ok (td.1, Some [seq e_exp ex (z * td.2) | z <- lead], lead)
    else Ok (td.1, Some lead, [seq e_log ex z / td.2 | z <- lead]).

(** one column averaged over its d delays, plotter.py:771-778 *)
Definition average_column (d : nat) (c : seq C) : seq C :=
  let n := (size c %/ d)%N in
  [seq (\sum_(j < d) nth 0 c (j * n + i)%N) / d%:R | i <- iota 0 n].
(** plotter.py:770-779; the reshape wants a multiple of d rows *)
Definition average_modes (d : nat) (cols : seq (seq C)) : result (seq (seq C)) :=
  if (1 < d)%N then
    if all (fun c => d * (size c %/ d) == size c)%N cols then Ok (map (average_column d) cols) else Err ValueError
  else Ok cols.

(** plotter.py:796-797: per cent of each singular value, at most [m] of them *)
Definition percents (m : nat) (s : seq C) : seq C := take m [seq z * (100%:R / \sum_(w <- s) w) | z <- s].

(** the indexes in a list of pairs, np.array(index_modes_cc). plotter.py:810, 812 *)
Definition flat (cc : seq (nat * nat)) : seq nat := flatten [seq [:: p.1; p.2] | p <- cc].
(** plotter.py:805-811: index_modes_cc *)
Fixpoint pair_loop (ce : seq C) (acc : seq (nat * nat)) (idx : seq nat) : seq (nat * nat) :=
  match idx with
  | [::] => acc
  | i :: rest =>
      let e := nth 0 ce i in
      pair_loop ce (if e^* \notin ce then rcons acc (i, i)
                    else if i \notin flat acc then rcons acc (i, index e^* ce) else acc) rest
  end.
(** plotter.py:812: other_eigs *)
Definition others (rank : nat) (cc : seq (nat * nat)) : seq nat := [seq i <- iota 0 rank | i \notin flat cc].

(** plotter.py:884-894: the indexes drawn in a main colour, in order; main_colors[k] past the end is an IndexError *)
Fixpoint paint (colours : seq K) (cc : seq (nat * nat)) : result (seq (nat * K)) :=
  match cc, colours with
  | [::], _ => Ok [::]
  | p :: cc', c :: colours' => let! r := paint colours' cc' in Ok [:: (p.1, c), (p.2, c) & r]
  | _, _ => Err IndexError
  end.
(** mode_colors[idx]: the last assignment counts. plotter.py:894, 918, 946 *)
Definition colour_of (painted : seq (nat * K)) (i : nat) : result K :=
  match [seq p.2 | p <- rev painted & p.1 == i] with c :: _ => Ok c | [::] => Err KeyError end.

(** one marker: its number among the sorted eigenvalues, its place, colour and size. plotter.py:886-905 *)
Record mark := Mark { mk_i : nat; mk_at : C; mk_colour : K; mk_size : C }.
(** plotter.py:884-905: one eigenvalue panel *)
Definition eig_panel (painted : seq (nat * K)) (rest : seq nat) (rc : K) (ms eigs : seq C) : seq mark :=
  [seq Mark p.1 (nth 0 eigs p.1) p.2 (nth 0 ms p.1) | p <- painted] ++
  [seq Mark i (nth 0 eigs i) rc (nth 0 ms i) | i <- rest].

(** plotter.py:915-939: a mode panel: number in the title, its colour, the real parts: one row against x, or the rows of
    the grid.  Axes.plot refuses an x of another length. *)
Record mode_panel := MPanel { mp_number : nat; mp_colour : K; mp_rows : seq (seq C) }.
(** plotter.py:942-955: a panel of dynamics: colour of the title, real parts, limits of the vertical axis if they are set *)
Record dyn_panel := DPanel { dp_colour : K; dp_values : seq C; dp_ylim : option (C * C) }.

(** np.average, plotter.py:954-955 *)
Definition average (s : seq C) : C := (\sum_(z <- s) z) / (size s)%:R.
(** dynamics_data.max() - dynamics_data.min(), plotter.py:953 *)
Definition spread (s : seq C) : C :=
  foldl (fun m z => if m <= z then z else m) (head 0 s) s - foldl (fun m z => if z <= m then z else m) (head 0 s) s.
(** plotter.py:952-955: np.sort([0, 2 average]) when the spread is tiny against the average.  Division by zero does not
    compare below 1e-4. *)
Definition ylim (s : seq C) : option (C * C) :=
  let a := average s in
  if (a != 0) && (spread s / `|a| < 10000%:R^-1) then Some (if 0 <= 2%:R * a then (0, 2%:R * a) else (2%:R * a, 0)) else None.

(** plotter.py:915-939 *)
Definition draw_mode (a : sargs) (shape : seq nat) (painted : seq (nat * K)) (cols : seq (seq C)) (i : nat)
  : result mode_panel :=
  let! c := colour_of painted i in
  let v := nth [::] cols i in
  let nx := if sa_x a is Some x then size x else nth 0%N shape 0%N in
  let! rows := if size shape == 2%N then
                 let ny := if sa_y a is Some y then size y else nth 0%N shape 1%N in
                 reshape2 (sa_order a) ny nx v
               else if nx == size v then Ok [:: v] else Err ValueError in
  Ok (MPanel i.+1 c [seq [seq 'Re z | z <- r] | r <- rows]).
(** plotter.py:942-955; Axes.plot refuses times of another length *)
Definition draw_dyn (time : seq C) (painted : seq (nat * K)) (dyn : seq (seq C)) (i : nat) : result dyn_panel :=
  let v := [seq 'Re z | z <- nth [::] dyn i] in
  let! c := colour_of painted i in
  if size time == size v then Ok (DPanel c v (ylim v)) else Err ValueError.

(** the loops over zip(axes, index_modes): there are three axes. plotter.py:915, 942 *)
Fixpoint panels {T} (f : nat -> result T) (idx : seq nat) : result (seq T) :=
  match idx with
  | [::] => Ok [::]
  | i :: rest => let! x := f i in let! r := panels f rest in Ok (x :: r)
  end.

(** the whole picture: per cents of the singular values used and not used, markers of the discrete-time and of the
    continuous-time eigenvalues, times, modes, dynamics. plotter.py:814-967 *)
Record summary := Summary {
  su_used : seq C; su_unused : seq C; su_disc : seq mark; su_cont : seq mark; su_time : seq C;
  su_modes : seq mode_panel; su_dyn : seq dyn_panel }.

(** swapped axes, plotter.py:870-874 *)
Definition flip (z : C) : C := 'i * 'Re z + 'Im z.

(** plotter.py:537-967: plot_summary *)
Definition plot_summary (dmd : sdmd) (a : sargs) : result summary :=
  if sd_havok dmd then Err ValueError else
  match sd_modes dmd with
  | None => Err ValueError
  | Some modes =>
      let! shape := match sa_shape a with
                    | None => match sd_snap dmd with
                              | None => Err TypeError
                              | Some (n, _) => if sa_d a == 0%N then Err ZeroDivisionError else Ok [:: (n %/ sa_d a)%N]
                              end
                    | Some s => if size s == 2%N then Ok s else Err ValueError
                    end in
      if (3 < size (sa_index a))%N then Err ValueError else
      let rank := size (sd_eigs dmd) in
      if (sa_max a < rank)%N then Err ValueError else
      let index := if (rank < 3)%N then iota 0 rank else sa_index a in
      if has (fun i => (rank <= i)%N) index then Err ValueError else
      let o := e_argsort ex [seq - `|z| | z <- sd_amps dmd] in
      let lead_eigs := pick 0 (sd_eigs dmd) o in
      let lead_modes := pick [::] modes o in
      let lead_dyn := pick [::] (sd_dyn dmd) o in
      let lead_amps := [seq `|z| | z <- pick 0 (sd_amps dmd) o] in
      let! conv := conversions dmd a lead_eigs in
      let '(time, disc, cont) := conv in
      let! lead_modes := average_modes (sa_d a) lead_modes in
      let! s := if sd_svals dmd is Some s then Ok s else Err ValueError in
      let s_var := percents (sa_max a) s in
      let cc := pair_loop cont [::] index in
      let! a0 := if lead_amps is z :: _ then Ok z else Err IndexError in
      let ms := [seq sa_ms a * sqrtC (z / a0) | z <- lead_amps] in
      let! painted := paint (sa_main a) cc in
      let panel := eig_panel painted (others rank cc) (sa_rank_colour a) ms in
      let! mp := panels (draw_mode a shape painted lead_modes) (take 3 index) in
      let! dp := panels (draw_dyn time painted lead_dyn) (take 3 index) in
      Ok (Summary (take rank s_var) (drop rank s_var) (if disc is Some e then panel e else [::])
            (panel (if sa_flip a then map flip cont else cont)) time mp dp)
  end.
End Summary.
