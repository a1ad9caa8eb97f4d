(** * ParametricDMD: paramdmd.py

    Arrays are row-major (C order) lists of entries with their shape, so that a
    reshape keeps the list.  The inner DMD instances, the POD and the
    interpolator are arbitrary objects known through the methods paramdmd.py
    calls. *)
From Coq Require Import List Arith Bool.
From Verif Require Import Py.
Import ListNotations.
Set Implicit Arguments.

Section Arrays.
Variables (V : Type) (v0 : V).   (* [v0]: what an out-of-range read would give *)
(** two-dimensional arrays: paramdmd.py:284, 339-342, 407 *)
Record arr2 := A2 { r2 : nat; c2 : nat; d2 : list V }.
(** three-dimensional arrays: paramdmd.py:283, 397-399, 454, 521-524 *)
Record arr3 := A3 { n0 : nat; n1 : nat; n2 : nat; d3 : list V }.
(** [A[i, j]], used for paramdmd.py:284-342 *)
Definition at2 (A : arr2) (i j : nat) : V := nth (i * c2 A + j) (d2 A) v0.
(** [A[i, j, k]], used for paramdmd.py:283-562 *)
Definition at3 (A : arr3) (i j k : nat) : V := nth ((i * n1 A + j) * n2 A + k) (d3 A) v0.
(** the array of shape (r, c) with entries [f i j]. used for paramdmd.py:342 *)
Definition tab2 (r c : nat) (f : nat -> nat -> V) : arr2 :=
  A2 r c (map (fun k => f (k / c) (k mod c)) (seq 0 (r * c))).
(** an array of shape (a, b, c), used for paramdmd.py:17-30, 283, 530-562 *)
Definition tab3 (a b c : nat) (f : nat -> nat -> nat -> V) : arr3 :=
  A3 a b c (map (fun k => f (k / c / b) ((k / c) mod b) (k mod c)) (seq 0 (a * b * c))).

(** np.swapaxes on the axes (0,1), (1,2), (0,2). paramdmd.py:283 *)
Definition swap01 (A : arr3) : arr3 := tab3 (n1 A) (n0 A) (n2 A) (fun i j k => at3 A j i k).
(** paramdmd.py:17-30 *)
Definition swap12 (A : arr3) : arr3 := tab3 (n0 A) (n2 A) (n1 A) (fun i j k => at3 A i k j).
(** paramdmd.py:17-30 *)
Definition swap02 (A : arr3) : arr3 := tab3 (n2 A) (n1 A) (n0 A) (fun i j k => at3 A k j i).
(** paramdmd.py:17-30 *)
Definition back_roll_shape (A : arr3) : arr3 := swap12 (swap01 A).
(** paramdmd.py:25-30 *)
Definition roll_shape (A : arr3) : arr3 := swap12 (swap02 A).

(** paramdmd.py:283-284: reshape((m, -1)) refuses m = 0 *)
Definition arrange (X : arr3) : result arr2 :=
  let Y := swap01 X in
  if n0 Y =? 0 then Err ValueError else Ok (A2 (n0 Y) (n1 Y * n2 Y) (d3 Y)).

(** np.split(A, k, axis=1). paramdmd.py:342 *)
Definition split_cols (A : arr2) (k : nat) : result (list arr2) :=
  if k =? 0 then Err ZeroDivisionError
  else if c2 A mod k =? 0
  then let w := c2 A / k in
       Ok (map (fun b => tab2 (r2 A) w (fun i j => at2 A i (b * w + j))) (seq 0 k))
  else Err ValueError.

(** np.vstack. paramdmd.py:407, 487 *)
Definition vstack (l : list arr2) : result arr2 :=
  match l with
  | [] => Err ValueError
  | A :: t => if forallb (fun B => c2 B =? c2 A) t
              then Ok (A2 (fold_right (fun B s => r2 B + s) 0 l) (c2 A) (concat (map d2 l)))
              else Err ValueError
  end.

(** np.array of a list of equally shaped matrices (those of np.split). paramdmd.py:397-399 *)
Definition stack3 (l : list arr2) : arr3 :=
  match l with
  | [] => A3 0 0 0 []
  | A :: _ => A3 (length l) (r2 A) (c2 A) (concat (map d2 l))
  end.

(** F.reshape((k, -1, F.shape[1])). paramdmd.py:454, 521-524 *)
Definition split_rows (F : arr2) (k : nat) : result arr3 :=
  if k * c2 F =? 0 then Err ValueError
  else if (r2 F * c2 F) mod (k * c2 F) =? 0
  then Ok (A3 k (r2 F * c2 F / (k * c2 F)) (c2 F) (d2 F))
  else Err ValueError.

(** iteration over the first axis. paramdmd.py:533 *)
Definition slice0 (A : arr3) (t : nat) : arr2 :=
  A2 (n1 A) (n2 A) (firstn (n1 A * n2 A) (skipn (t * (n1 A * n2 A)) (d3 A))).
(** paramdmd.py:533 *)
Definition slices0 (A : arr3) : list arr2 := map (slice0 A) (seq 0 (n0 A)).

(** np.dstack of the matrices with a trailing axis of length one. paramdmd.py:530-535 *)
Definition dstack (l : list arr2) : result arr3 :=
  match l with
  | [] => Err ValueError
  | A :: t => if forallb (fun B => (r2 B =? r2 A) && (c2 B =? c2 A)) t
              then Ok (tab3 (r2 A) (c2 A) (length l) (fun i j k => at2 (nth k l A) i j))
              else Err ValueError
  end.

(** sequential evaluation of a list of calls. paramdmd.py:530-535, 560-562 *)
Fixpoint all_ok {A} (l : list (result A)) : result (list A) :=
  match l with
  | [] => Ok []
  | x :: t => let! a := x in let! r := all_ok t in Ok (a :: r)
  end.

(** np.apply_along_axis(f, 1, A) for a function from vectors to vectors.
    Simplification: results of different lengths are refused (NumPy broadcasts length one). paramdmd.py:560-562 *)
Definition fibre (A : arr3) (i k : nat) : list V := map (fun j => at3 A i j k) (seq 0 (n1 A)).
(** paramdmd.py:560-562 *)
Definition apply_axis1 (f : list V -> result (list V)) (A : arr3) : result arr3 :=
  if n0 A * n2 A =? 0 then Err ValueError
  else
    let! vs := all_ok (map (fun p => f (fibre A (p / n2 A) (p mod n2 A))) (seq 0 (n0 A * n2 A))) in
    let m := length (hd [] vs) in
    if forallb (fun v => length v =? m) vs
    then Ok (tab3 (n0 A) m (n2 A) (fun i x k => nth x (nth (i * n2 A + k) vs []) v0))
    else Err ValueError.
End Arrays.
Arguments A2 {V}. Arguments A3 {V}.

(** ** Parameters *)
Section Params.
Variable W : Type.
(** what the user passes: arrays or lists of 0, 1, 2 or more dimensions (with their length), a tuple, None.
    Simplification: a list that is not rectangular is not modelled (np.array raises ValueError).
    paramdmd.py:196-201, 239-244 *)
Inductive pvalue :=
| P0 (w : W) | P1 (l : list W) | P2 (rows : list (list W)) | PMore (len : nat) | PTuple (len : nat) | PNone.
(** what is stored: two dimensions, or a 0-d array. paramdmd.py:203, 246 *)
Inductive pstored := S2 (rows : list (list W)) | S0 (w : W).
(** paramdmd.py:188-205, 239-246 *)
Definition normalise (v : pvalue) : result pstored :=
  match v with
  | P0 w => Ok (S0 w)
  | P1 l => Ok (S2 (map (fun w => [w]) l))
  | P2 rows => Ok (S2 rows)
  | PMore _ => Err ValueError
  | PTuple _ | PNone => Err AttributeError
  end.
(** len(training_parameters), paramdmd.py:366 *)
Definition plen (v : pvalue) : result nat :=
  match v with
  | P0 _ | PNone => Err TypeError
  | P1 l => Ok (length l) | P2 rows => Ok (length rows) | PMore n | PTuple n => Ok n
  end.
(** len(self.parameters), paramdmd.py:514 *)
Definition slen (s : pstored) : result nat :=
  match s with S2 rows => Ok (length rows) | S0 _ => Err TypeError end.
End Params.
Arguments P0 {W}. Arguments P1 {W}. Arguments P2 {W}. Arguments PMore {W}. Arguments PTuple {W}. Arguments PNone {W}.
Arguments S2 {W}. Arguments S0 {W}.

Section Model.
Variables (V : Type) (v0 : V) (W : Type).
(** the collaborators: DMD instances with their time dictionary, POD, interpolator. paramdmd.py:65-95 *)
Record env := Env {
  e_D : Type; e_T : Type; e_P : Type; e_A : Type;
  dmd_fit : e_D -> arr2 V -> e_D * result unit;
  dmd_time : e_D -> result e_T;
  dmd_set_time : e_D -> e_T -> e_D;
  dmd_rec : e_D -> result (arr2 V);
  pod_fit : arr2 V -> result e_P;
  pod_reduce : e_P -> arr2 V -> result (arr2 V);
  pod_expand : e_P -> list V -> result (list V);
  app_fit : e_A -> pstored W -> arr2 V -> result e_A;
  app_predict : e_A -> pstored W -> result (arr2 V) }.
Variable E : env.

(** [p_dmds]: the list of instances, or the single one of a monolithic instance. paramdmd.py:65-95 *)
Record pstate := PState {
  p_part : bool; p_light : bool;
  p_dmds : list (e_D E); p_pod : option (e_P E); p_app : e_A E;
  p_train : option (pstored W); p_par : option (pstored W);
  p_ntrain : option nat; p_coef : option (arr3 V) }.

(** paramdmd.py:65-95; an empty list of instances is partitioned *)
Definition p_init (part light : bool) (ds : list (e_D E)) (a : e_A E) : pstate :=
  PState part light ds None a None None None None.
(** after a call on the DMD instances, paramdmd.py:405, 408, 486 *)
Definition with_dmds (s : pstate) ds := PState (p_part s) (p_light s) ds (p_pod s) (p_app s) (p_train s) (p_par s) (p_ntrain s) (p_coef s).
(** after the fit of the POD, paramdmd.py:339 *)
Definition with_pod (s : pstate) p := PState (p_part s) (p_light s) (p_dmds s) (Some p) (p_app s) (p_train s) (p_par s) (p_ntrain s) (p_coef s).
(** after the fit of the interpolator, paramdmd.py:527 *)
Definition with_app (s : pstate) a := PState (p_part s) (p_light s) (p_dmds s) (p_pod s) a (p_train s) (p_par s) (p_ntrain s) (p_coef s).
(** paramdmd.py:203 *)
Definition with_train (s : pstate) t := PState (p_part s) (p_light s) (p_dmds s) (p_pod s) (p_app s) (Some t) (p_par s) (p_ntrain s) (p_coef s).
(** paramdmd.py:246 *)
Definition with_par (s : pstate) t := PState (p_part s) (p_light s) (p_dmds s) (p_pod s) (p_app s) (p_train s) (Some t) (p_ntrain s) (p_coef s).
(** paramdmd.py:375 *)
Definition with_ntrain (s : pstate) n := PState (p_part s) (p_light s) (p_dmds s) (p_pod s) (p_app s) (p_train s) (p_par s) (Some n) (p_coef s).
(** paramdmd.py:397-399 *)
Definition with_coef (s : pstate) c := PState (p_part s) (p_light s) (p_dmds s) (p_pod s) (p_app s) (p_train s) (p_par s) (p_ntrain s) (Some c).

(** paramdmd.py:399-402: stops at the first fit that raises *)
Fixpoint fit_each (ds : list (e_D E)) (l : list (arr2 V)) : list (e_D E) * result unit :=
  match ds, l with
  | d :: ds', A :: l' =>
      match dmd_fit E d A with
      | (d1, Ok _) => let '(r, x) := fit_each ds' l' in (d1 :: r, x)
      | (d1, Err e) => (d1 :: ds', Err e)
      end
  | _, _ => (ds, Ok tt)
  end.

(** paramdmd.py:398-408 *)
Definition fit_dmds (s : pstate) (l : list (arr2 V)) : pstate * result unit :=
  if p_part s then let '(ds, x) := fit_each (p_dmds s) l in (with_dmds s ds, x)
  else match vstack l with
       | Err e => (s, Err e)
       | Ok A =>
           match p_dmds s with
           | [] => (s, Err AttributeError)
           | d :: ds => let '(d1, x) := dmd_fit E d A in (with_dmds s (d1 :: ds), x)
           end
       end.

(** paramdmd.py:344-408 *)
Definition p_fit (s : pstate) (X : arr3 V) (v : pvalue W) : pstate * result unit :=
  match plen v with
  | Err e => (s, Err e)
  | Ok n =>
    if negb (n0 X =? n) then (s, Err ValueError)
    else
      let s := with_ntrain s (n0 X) in
      if p_part s && negb (n0 X =? length (p_dmds s)) then (s, Err ValueError)
      else
        match normalise v with
        | Err e => (s, Err e)
        | Ok t =>
          let s := with_train s t in
          match arrange v0 X with
          | Err e => (s, Err e)
          | Ok M =>
            match pod_fit E M with
            | Err e => (s, Err e)
            | Ok P =>
              let s := with_pod s P in
              match pod_reduce E P M with
              | Err e => (s, Err e)
              | Ok C =>
                match split_cols v0 C (n0 X) with
                | Err e => (s, Err e)
                | Ok l =>
                  let s := if p_light s then s else with_coef s (stack3 l) in
                  fit_dmds s l
                end
              end
            end
          end
        end
  end.

(** paramdmd.py:239-246 *)
Definition p_set_parameters (s : pstate) (v : pvalue W) : pstate * result unit :=
  match normalise v with Err e => (s, Err e) | Ok t => (with_par s t, Ok tt) end.

(** paramdmd.py:97-139: the reference is the first instance *)
Definition p_get_time (s : pstate) : result (e_T E) :=
  match p_dmds s with [] => Err IndexError | d :: _ => dmd_time E d end.
(** paramdmd.py:137-139 *)
Definition p_set_time (s : pstate) (t : e_T E) : pstate * result unit :=
  match p_dmds s with
  | [] => (s, Err IndexError)
  | d :: ds => (with_dmds s (dmd_set_time E d t :: ds), Ok tt)
  end.

(** paramdmd.py:483-490: every instance receives the time of the reference; [v] is read once per
    iteration, and the first iteration assigns it to the reference itself *)
Definition sync_times (s : pstate) : pstate * result unit :=
  match p_dmds s with
  | [] => (s, Ok tt)
  | d :: ds =>
      match dmd_time E d with
      | Err e => (s, Err e)
      | Ok t =>
          let d1 := dmd_set_time E d t in
          match ds with
          | [] => (with_dmds s [d1], Ok tt)
          | _ =>
              match dmd_time E d1 with
              | Err e => (with_dmds s (d1 :: ds), Err e)
              | Ok t1 => (with_dmds s (d1 :: map (fun d => dmd_set_time E d t1) ds), Ok tt)
              end
          end
      end
  end.
(** paramdmd.py:473-490 *)
Definition predict_coeffs (s : pstate) : pstate * result (arr2 V) :=
  if p_part s then
    match sync_times s with
    | (s1, Err e) => (s1, Err e)
    | (s1, Ok _) => (s1, let! l := all_ok (map (dmd_rec E) (p_dmds s1)) in vstack l)
    end
  else (s, match p_dmds s with [] => Err AttributeError | d :: _ => dmd_rec E d end).

(** paramdmd.py:443-454; reshape with None raises TypeError *)
Definition p_forecasted (s : pstate) : pstate * result (arr3 V) :=
  let '(s1, x) := predict_coeffs s in
  (s1, let! F := x in
       match p_ntrain s1 with None => Err TypeError | Some k => split_rows F k end).

(** paramdmd.py:525-535: the interpolator is fitted once per time instant and keeps its last fit *)
Fixpoint interp_slices (a : e_A E) (tr par : pstored W) (l : list (arr2 V)) : e_A E * result (list (arr2 V)) :=
  match l with
  | [] => (a, Ok [])
  | M :: l' =>
      match app_fit E a tr M with
      | Err e => (a, Err e)
      | Ok a1 =>
          match app_predict E a1 par with
          | Err e => (a1, Err e)
          | Ok R => let '(a2, x) := interp_slices a1 tr par l' in (a2, let! r := x in Ok (R :: r))
          end
      end
  end.
(** paramdmd.py:512-535.  Simplification: training parameters that were never set (possible only when the
    DMD instances were fitted elsewhere) raise TypeError with the reshape *)
Definition interpolate (s : pstate) (F : arr2 V) : pstate * result (arr3 V) :=
  match p_par s with
  | None => (s, Err ValueError)
  | Some par =>
    match slen par with
    | Err e => (s, Err e)
    | Ok 0 => (s, Err ValueError)
    | Ok _ =>
      match p_ntrain s, p_train s with
      | Some k, Some tr =>
        match split_rows F k with
        | Err e => (s, Err e)
        | Ok B => let '(a, x) := interp_slices (p_app s) tr par (slices0 (roll_shape v0 B)) in
                  (with_app s a, let! l := x in dstack v0 l)
        end
      | _, _ => (s, Err TypeError)
      end
    end
  end.
(** paramdmd.py:456-469 *)
Definition p_interpolated (s : pstate) : pstate * result (arr3 V) :=
  match predict_coeffs s with
  | (s1, Err e) => (s1, Err e)
  | (s1, Ok F) => interpolate s1 F
  end.
(** paramdmd.py:537-562 *)
Definition p_reconstructed (s : pstate) : pstate * result (arr3 V) :=
  match p_interpolated s with
  | (s1, Err e) => (s1, Err e)
  | (s1, Ok J) => (s1, match p_pod s1 with
                       | None => Err AttributeError
                       | Some P => apply_axis1 v0 (pod_expand E P) J end)
  end.
(** paramdmd.py:413-441 *)
Definition p_training_coeffs (s : pstate) : result (arr3 V) :=
  if p_light s then Err RuntimeError
  else match p_coef s with None => Err RuntimeError | Some c => Ok c end.

(** ** Histories. the calls of paramdmd.py:97-562 *)
Inductive pop :=
| OFit (X : arr3 V) (v : pvalue W) | OParams (v : pvalue W) | OTime (t : e_T E)
| OForecasted | OInterpolated | OReconstructed | OTraining | OReadTime.
(** the value of a call is not kept (calls of paramdmd.py:97-562) *)
Definition drop {A} (p : pstate * result A) : pstate * result unit :=
  (fst p, let! _ := snd p in Ok tt).
(** one call of paramdmd.py:97-562 *)
Definition pstep (s : pstate) (o : pop) : pstate * result unit :=
  match o with
  | OFit X v => p_fit s X v
  | OParams v => p_set_parameters s v
  | OTime t => p_set_time s t
  | OForecasted => drop (p_forecasted s)
  | OInterpolated => drop (p_interpolated s)
  | OReconstructed => drop (p_reconstructed s)
  | OTraining => (s, let! _ := p_training_coeffs s in Ok tt)
  | OReadTime => (s, let! _ := p_get_time s in Ok tt)
  end.
(** a sequence of calls of paramdmd.py:97-562 *)
Definition prun (s : pstate) (l : list pop) : pstate := fold_left (fun s o => fst (pstep s o)) l s.
End Model.
