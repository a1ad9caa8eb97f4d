(** * What plot_summary should show *)
From Coq Require List.
From mathcomp Require Import all_ssreflect all_algebra.
From Verif Require Import Py Model_Plot Model_Summary.
Set Implicit Arguments. Unset Strict Implicit. Unset Printing Implicit Defensive.
Import GRing.Theory Num.Theory.
Local Open Scope ring_scope.

Section Spec.
Variable C : numClosedFieldType.
Variable K : Type.

(** np.argsort: the positions, in an order that makes the values increase *)
Definition argsort_ok (f : seq C -> seq nat) : Prop := forall s, all (fun z => z \is Num.real) s ->
  perm_eq (f s) (iota 0 (size s)) /\ sorted <=%R [seq nth 0 s i | i <- f s].

(** a fitted object: one mode, amplitude and row of dynamics per eigenvalue *)
Definition aligned (d : sdmd C) (modes : seq (seq C)) : Prop :=
  [/\ sd_modes d = Some modes, size modes = size (sd_eigs d), size (sd_amps d) = size (sd_eigs d)
    & size (sd_dyn d) = size (sd_eigs d)].

(** position [p] holds an amplitude of rank [k] in magnitude: at most k are larger, more than k are at least as large *)
Definition significance (amps : seq C) (k p : nat) : Prop :=
  (seq.count (fun z => (`|nth 0 amps p| < `|z|)%R) amps <= k < seq.count (fun z => (`|nth 0 amps p| <= `|z|)%R) amps)%N.

(** the numbers of the modes that are shown: the requested ones, all of them when there are fewer than three *)
Definition shown (d : sdmd C) (a : sargs C K) : seq nat :=
  if (size (sd_eigs d) < 3)%N then iota 0 (size (sd_eigs d)) else sa_index a.

(** the time step used to convert eigenvalues, and the times of the dynamics *)
Definition step_of (d : sdmd C) (a : sargs C K) (time : seq C) (dt : C) : Prop :=
  if sd_bop d then time = sd_time d /\ dt = nth 0 time 1 - nth 0 time 0
  else match sa_t a with
       | TNum t => dt = t /\ (forall n m, sd_snap d = Some (n, m) -> time = [seq i%:R * t | i <- iota 0 m])
       | TArr t => time = t /\ dt = nth 0 t 1 - nth 0 t 0
       | TNone => match sd_orig d with
                  | Some o => (time, dt) = o
                  | None => dt = 1 /\ (forall n m, sd_snap d = Some (n, m) -> time = [seq i%:R | i <- iota 0 m])
                  end
       end.
(** the times of the dynamics, when there are any *)
Definition times (d : sdmd C) (a : sargs C K) : option (seq C) :=
  if sd_bop d then (if (1 < size (sd_time d))%N then Some (sd_time d) else None)
  else match sd_snap d with
       | None => None
       | Some (_, m) => match sa_t a with
                        | TNum t => Some [seq i%:R * t | i <- iota 0 m]
                        | TArr t => if (1 < size t)%N then Some t else None
                        | TNone => Some (if sd_orig d is Some o then o.1 else [seq i%:R | i <- iota 0 m])
                        end
       end.
(** every mode has d values per point of the grid that is drawn *)
Definition on_grid (d : sdmd C) (a : sargs C K) (modes : seq (seq C)) : Prop :=
  match sa_shape a with
  | None => exists n m, [/\ sd_snap d = Some (n, m), (0 < sa_d a)%N, (sa_d a %| n)%N & all (fun v => size v == n) modes]
  | Some [:: w; h] => all (fun v => size v == w * h * maxn 1 (sa_d a))%N modes
  | _ => False
  end.
(** the eigenvalues of the object are continuous-time ones *)
Definition is_continuous (d : sdmd C) (a : sargs C K) : bool := sd_bop d || sa_cont a.

(** the continuous-time eigenvalue of an eigenvalue of the object *)
Definition to_cont (ex : sext C) (d : sdmd C) (a : sargs C K) (dt z : C) : C := if is_continuous d a then z else e_log ex z / dt.
Definition to_disc (ex : sext C) (d : sdmd C) (a : sargs C K) (dt z : C) : C := if is_continuous d a then e_exp ex (z * dt) else z.

(** the place where a continuous-time eigenvalue is drawn *)
Definition place (a : sargs C K) (z : C) : C := if sa_flip a then 'Im z + 'i * 'Re z else z.

(** mean over the delays of the rows of a mode *)
Definition delay_mean (d : nat) (v : seq C) (i : nat) : C :=
  (\sum_(j < d) nth 0 v (j * (size v %/ d) + i)%N) / d%:R.
End Spec.
