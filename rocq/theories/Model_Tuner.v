(** * Model of the modes tuner

    Source: /repo/pydmd/dmd_modes_tuner.py (all of it).

    A DMD instance is represented by what the tuner can read and write through
    the public interface of DMDBase: the table of modes, the activation mask,
    the two time windows.  [Properties_Tuner.C27_interface] shows that these
    reads and writes are those of the model of DMDBase ([Spec_Base.view_step],
    the specification proved for [Model_Base] in C01).

    Simplifications (all in this file):
    - the instance is fitted;
    - a number is exact, or NaN; a radius may be infinite; NaN radii are not
      represented;
    - a time window is represented by the exponents (dmdbase.py:283-293) it
      gives to the eigenvalues, all integers. *)

From Coq Require Import ZArith.
From Verif Require Import Py Model_Base Spec_Base.
From mathcomp Require Import all_ssreflect all_algebra.

Set Implicit Arguments.
Unset Strict Implicit.
Unset Printing Implicit Defensive.
Import GRing.Theory Num.Theory.
Local Open Scope ring_scope.

Section Tuner.
Variable C : numClosedFieldType.

(** an entry of the arrays: a number, NaN, or a whole column of [modes].
    dmdbase.py:227-269,392-405 (what the arrays hold) *)
Inductive entry := Val of C | NaN | Col of seq C.

(** a Python float used as a radius or a distance. dmd_modes_tuner.py:81, 187, 294 *)
Inductive ext := Fin of C | PInf | NInf.

(** an instance: see the header; [d_opt]-shifts are inside the exponents. dmdbase.py:178-197 *)
Record dmd := mkDmd {
  d_full : seq (mode entry);
  d_mask : seq bool;
  d_ot : seq int;            (* original_time *)
  d_dt : seq int }.          (* dmd_time *)

(** dmdbase.py:227-269,392-405: modes, eigs, amplitudes *)
Definition get (k : kind) (d : dmd) : seq entry := [seq field k r | r <- sel (d_mask d) (d_full d)].
(** dmdbase.py:254-269 *)
Definition eigs := get KEigs.
(** dmdbase.py:392-405 *)
Definition amplitudes := get KAmps.
(** dmdbase.py:227-242 *)
Definition modes := get KModes.

(** dmdbase.py:460-480: assignment to modes_activation_bitmask (a boolean
    array of the right shape) *)
Definition set_mask (d : dmd) (m : seq bool) : dmd := mkDmd (d_full d) m (d_ot d) (d_dt d).

(** writing a whole array through the mask: entry [j] of [vs] goes to the
    [j]-th active mode. dmd_modes_tuner.py:132-135 *)
Fixpoint put (k : kind) (m : seq bool) (l : seq (mode entry)) (vs : seq entry) : seq (mode entry) :=
  match m, l with
  | true :: m', r :: l' => match vs with
                           | v :: vs' => set_field k v r :: put k m' l' vs'
                           | [::] => r :: put k m' l' [::] end
  | false :: m', r :: l' => r :: put k m' l' vs
  | _, _ => l
  end.
(** dmd_modes_tuner.py:132-135 *)
Definition write (k : kind) (d : dmd) (vs : seq entry) : dmd :=
  mkDmd (put k (d_mask d) (d_full d) vs) (d_mask d) (d_ot d) (d_dt d).

(** dmdbase.py:201-213,271-296: dynamics on the current dmd_time.
    Simplification: 0 to a negative power, NaN or inf in NumPy, is 0 here. *)
Definition num (v : entry) : C := if v is Val z then z else 0.
(** dmdbase.py:271-296 *)
Definition dynamics (d : dmd) : seq (seq C) :=
  [seq [seq num p.1 ^ k * num p.2 | k <- d_dt d] | p <- zip (eigs d) (amplitudes d)].

(** ** select_modes (lines 12-77) *)

(** A criterion is a Python function of the instance; it may raise and it may
    change the instance. dmd_modes_tuner.py:65 *)
Definition criterion := dmd -> dmd * result (seq bool).

(** np.where(c)[0]. dmd_modes_tuner.py:65, 138 *)
Definition where_ (c : seq bool) : seq nat := [seq i <- iota 0 (size c) | nth false c i].

(** lines 71-72: tmp = np.array(mask); tmp[cut_indexes] = False *)
Definition clear (cut : seq nat) (m : seq bool) : seq bool :=
  foldl (fun m i => upd m i false) m cut.

(** [nullify] is the argument of line 17, which the body never reads.
    [setlist] is the order in which Python enumerates a set of integers
    (line 68), about which nothing is assumed here. *)
Definition select_modes (setlist : seq nat -> seq nat) (nullify : bool)
    (criteria : criterion) (d : dmd) : dmd * result (seq nat) :=
  let '(d1, r) := criteria d in
  match r with
  | Err x => (d1, Err x)
  | Ok c =>
      let selected := where_ c in                                   (* 65 *)
      let all := iota 0 (size (eigs d1)) in                         (* 67 *)
      let cut := setlist [seq i <- all | i \notin selected] in      (* 68 *)
      (if (0 < size cut)%N then set_mask d1 (clear cut (d_mask d1)) else d1, Ok cut)
  end.

(** ** stabilize_modes (lines 80-140) *)

(** np.abs; [None] for NaN, with which every comparison is False *)
Definition vabs (v : entry) : option C := if v is Val z then Some `|z| else None.
(** dmd_modes_tuner.py:129, 182 *)
Definition lt_ext (a : option C) (t : ext) : bool :=          (* a < t *)
  match a, t with Some x, Fin y => x < y | Some _, PInf => true | _, _ => false end.
(** dmd_modes_tuner.py:128, 183 *)
Definition ext_lt (t : ext) (a : option C) : bool :=          (* t < a *)
  match t, a with Fin y, Some x => y < x | NInf, Some _ => true | _, _ => false end.

(** lines 127-130 *)
Definition fixable (lo hi : ext) (v : entry) : bool := ext_lt lo (vabs v) && lt_ext (vabs v) hi.

(** line 132: b *= |e|;  line 135: e /= |e| (0/0 is NaN) *)
Definition mul_abs (b e : entry) : entry :=
  match b, e with Val x, Val z => Val (x * `|z|) | _, _ => NaN end.
(** dmd_modes_tuner.py:135 *)
Definition div_abs (e : entry) : entry :=
  if e is Val z then if z == 0 then NaN else Val (z / `|z|) else NaN.

(** dmd_modes_tuner.py:80-140 *)
Definition stabilize_modes (lo hi : ext) (d : dmd) : dmd * seq nat :=
  let fix_ := [seq fixable lo hi e | e <- eigs d] in
  let d1 := write KAmps d
     [seq if q.1 then mul_abs q.2.1 q.2.2 else q.2.1
     | q <- zip fix_ (zip (amplitudes d) (eigs d))] in             (* 132-134 *)
  let d2 := write KEigs d1
     [seq if q.1 then div_abs q.2 else q.2 | q <- zip fix_ (eigs d1)] in   (* 135 *)
  (d2, where_ fix_).                                                (* 138 *)

(** ** ModesSelectors (lines 143-368) *)

(** lines 166-184 and 187-203 *)
Definition threshold (low up : ext) : criterion := fun d =>
  (d, Ok [seq lt_ext (vabs e) up && ext_lt low (vabs e) | e <- eigs d]).

(** 1 - x and 1 + x on floats. dmd_modes_tuner.py:224-225 *)
Definition one_minus (x : ext) : ext :=
  match x with Fin c => Fin (1 - c) | PInf => NInf | NInf => PInf end.
(** dmd_modes_tuner.py:225 *)
Definition one_plus (x : ext) : ext :=
  match x with Fin c => Fin (1 + c) | PInf => PInf | NInf => NInf end.

(** lines 206-226 *)
Definition stable_modes_ (inside outside : ext) : criterion :=
  threshold (one_minus inside) (one_plus outside).

(** truth value of an optional float: None and 0.0 are false. dmd_modes_tuner.py:278-291 *)
Definition truthy (x : option ext) : bool :=
  match x with None => false | Some (Fin c) => c != 0 | Some _ => true end.
(** dmd_modes_tuner.py:298-300 *)
Definition is_pinf (x : ext) : bool := if x is PInf then true else false.

(** lines 228-309 *)
Definition stable_modes (both inside outside : option ext) : result criterion :=
  if truthy both && truthy inside then Err ValueError                (* 278 *)
  else if truthy both && truthy outside then Err ValueError          (* 283 *)
  else
    let outside1 := if truthy both then both else outside in         (* 289-291 *)
    let inside1 := if truthy both then both else inside in
    let outside2 := odflt PInf outside1 in                           (* 293-296 *)
    let inside2 := odflt PInf inside1 in
    if is_pinf outside2 && is_pinf inside2 then Err ValueError       (* 298 *)
    else Ok (stable_modes_ inside2 outside2).

(** lines 312-323 *)
Definition col (v : entry) : seq C := if v is Col c then c else [::].
(** dmd_modes_tuner.py:323 *)
Definition contribution (mode : entry) (dynamic : seq C) : C :=
  (\sum_(x <- col mode) `|x| ^+ 2) * \sum_(x <- dynamic) `|x|.

(** the list slice [-n:] of Python. dmd_modes_tuner.py:352 *)
Definition last_n (n : Z) (l : seq nat) : seq nat :=
  let len := Z.of_nat (size l) in
  let start := Z.max Z0 (Z.min len (if Z.ltb (Z.opp n) Z0 then Z.add (Z.opp n) len else Z.opp n)) in
  drop (Z.to_nat start) l.

(** lines 325-356; [argsort] is NumPy's (quicksort: ties in any order) *)
Definition integral_contribution (argsort : seq C -> seq nat) (n : Z) : criterion := fun d =>
  let temp := d_dt d in                                              (* 337 *)
  let d1 := mkDmd (d_full d) (d_mask d) (d_ot d) (d_ot d) in         (* 338 *)
  let dyn := dynamics d1 in
  let ms := modes d1 in
  let d2 := mkDmd (d_full d1) (d_mask d1) (d_ot d1) temp in          (* 344 *)
  let cs := [seq contribution p.1 p.2 | p <- zip ms dyn] in          (* 347-350 *)
  let first_n := last_n n (argsort cs) in                            (* 352 *)
  (d2, Ok (foldl (fun m i => upd m i true) (nseq (size ms) false) first_n)).

(** ** ModesTuner (lines 378-538)

    Instances live in a heap and are named by their position; the tuner holds
    references. *)
Record tuner := mkTuner { t_list : bool; t_refs : seq nat }.
(** the instances and tuners alive: dmd_modes_tuner.py:378-403 *)
Record store := mkStore { heap : seq dmd; tuners : seq tuner }.

(** dmd_modes_tuner.py:398-400 *)
Inductive dmds := One of nat | Many of seq nat.   (* an instance or a list *)

(** what a dangling reference would read, for dmd_modes_tuner.py:403 *)
Definition no_dmd : dmd := mkDmd [::] [::] [::] [::].
(** the instance behind a reference, dmd_modes_tuner.py:403 *)
Definition obj (h : seq dmd) (r : nat) : dmd := nth no_dmd h r.

(** copy.deepcopy of the instance [r]: a new instance with equal content. dmd_modes_tuner.py:63, 122, 403, 449 *)
Definition deepcopy (h : seq dmd) (r : nat) : seq dmd := rcons h (obj h r).
(** list(map(deepcopy, refs)). dmd_modes_tuner.py:403, 448 *)
Definition deepcopies (h : seq dmd) (rs : seq nat) : seq dmd * seq nat :=
  (foldl deepcopy h rs, iota (size h) (size rs)).

(** dmd_modes_tuner.py:402 *)
Definition refs_of (a : dmds) : seq nat := match a with One r => [:: r] | Many rs => rs end.

(** lines 398-403 *)
Definition new_tuner (h : seq dmd) (a : dmds) (in_place : bool) : seq dmd * tuner :=
  let is_list := if a is Many _ then true else false in
  let rs := refs_of a in
  if in_place then (h, mkTuner is_list rs)
  else let '(h1, rs1) := deepcopies h rs in (h1, mkTuner is_list rs1).

(** lines 405-418: list comprehension over Python ints *)
Fixpoint pick (rs : seq nat) (ix : seq Z) : result (seq nat) :=
  match ix with
  | [::] => Ok [::]
  | z :: t => match norm_index (size rs) z with
              | None => Err IndexError
              | Some p => let! l := pick rs t in Ok (nth 0%N rs p :: l)
              end
  end.
(** dmd_modes_tuner.py:405-418 *)
Definition subset (t : tuner) (ix : seq Z) : result tuner :=
  if ~~ t_list t then Err ValueError
  else let! rs := pick (t_refs t) ix in Ok (mkTuner true rs).

(** lines 420-434 *)
Definition tuner_get (t : tuner) : dmds :=
  if t_list t then Many (t_refs t) else One (nth 0%N (t_refs t) 0).

(** lines 436-449 *)
Definition tuner_copy (h : seq dmd) (t : tuner) : seq dmd * dmds :=
  if t_list t then let '(h1, rs) := deepcopies h (t_refs t) in (h1, Many rs)
  else (deepcopy h (nth 0%N (t_refs t) 0), One (size h)).

(** The argument [criteria] of select with its keyword arguments: a known name
    with the arguments its selector takes, a known name with other keyword
    arguments (TypeError in the call of line 497), another string, a callable,
    anything else. *)
Inductive crit_arg :=
| CThreshold of ext & ext
| CStable of option ext & option ext & option ext
| CIntegral of Z
| CBadKwargs
| CUnknown
| CFun of criterion
| CNotCallable.

(** lines 494-502 with the table of 371-375 *)
Definition resolve (argsort : seq C -> seq nat) (c : crit_arg) : result criterion :=
  match c with
  | CThreshold lo up => Ok (threshold lo up)
  | CStable b i o => stable_modes b i o
  | CIntegral n => Ok (integral_contribution argsort n)
  | CBadKwargs => Err TypeError
  | CUnknown => Err ValueError
  | CFun f => Ok f
  | CNotCallable => Err ValueError
  end.

(** a Python loop over references, stopping at the first exception. dmd_modes_tuner.py:504-505, 536-537 *)
Fixpoint for_each (f : dmd -> dmd * result unit) (h : seq dmd) (rs : seq nat)
  : seq dmd * result unit :=
  match rs with
  | [::] => (h, Ok tt)
  | r :: t => let '(d, x) := f (obj h r) in
              let h1 := set_nth no_dmd h r d in
              match x with Ok _ => for_each f h1 t | Err e => (h1, Err e) end
  end.

(** the value of select_modes is not used: dmd_modes_tuner.py:505 *)
Definition drop_value A (x : dmd * result A) : dmd * result unit :=
  (x.1, match x.2 with Ok _ => Ok tt | Err e => Err e end).

(** lines 451-506 *)
Definition tuner_select setlist argsort (h : seq dmd) (t : tuner) (c : crit_arg)
    (nullify : bool) : seq dmd * result unit :=
  match resolve argsort c with
  | Err e => (h, Err e)
  | Ok f => for_each (fun d => drop_value (select_modes setlist nullify f d)) h (t_refs t)
  end.

(** lines 508-538 *)
Definition tuner_stabilize (h : seq dmd) (t : tuner) (lo hi : ext) : seq dmd * result unit :=
  for_each (fun d => ((stabilize_modes lo hi d).1, Ok tt)) h (t_refs t).

(** lines 62-63 and 121-122: the functions called directly, on instance [r] *)
Definition select_call setlist (h : seq dmd) (r : nat) (c : criterion) (in_place nullify : bool)
  : seq dmd * result (nat * seq nat) :=
  let '(h0, r0) := if in_place then (h, r) else (deepcopy h r, size h) in
  let '(d, x) := select_modes setlist nullify c (obj h0 r0) in
  (set_nth no_dmd h0 r0 d, let! cut := x in Ok (r0, cut)).
(** dmd_modes_tuner.py:80-140 *)
Definition stabilize_call (h : seq dmd) (r : nat) (lo hi : ext) (in_place : bool)
  : seq dmd * (nat * seq nat) :=
  let '(h0, r0) := if in_place then (h, r) else (deepcopy h r, size h) in
  let '(d, ix) := stabilize_modes lo hi (obj h0 r0) in
  (set_nth no_dmd h0 r0 d, (r0, ix)).

(** ** Histories: any number of tuners over a common heap. the calls of dmd_modes_tuner.py:398-538 *)
Inductive cmd :=
| New of dmds & bool
| Subset of nat & seq Z
| Get of nat
| Copy of nat
| Select of nat & crit_arg & bool
| Stabilize of nat & ext & ext.

(** what the calls of dmd_modes_tuner.py:398-538 return *)
Inductive reply := RUnit | RTuner of nat | RDmds of dmds | RRaise of exn.

(** dmd_modes_tuner.py:506, 538 *)
Definition of_res (x : result unit) : reply := match x with Ok _ => RUnit | Err e => RRaise e end.
(** what a dangling reference to a tuner of dmd_modes_tuner.py:378 would read *)
Definition no_tuner : tuner := mkTuner false [::].

(** one call of dmd_modes_tuner.py:398-538 *)
Definition step setlist argsort (s : store) (c : cmd) : store * reply :=
  let tn i := nth no_tuner (tuners s) i in
  match c with
  | New a ip => let '(h, t) := new_tuner (heap s) a ip in
                (mkStore h (rcons (tuners s) t), RTuner (size (tuners s)))
  | Subset i ix => match subset (tn i) ix with
                   | Ok t => (mkStore (heap s) (rcons (tuners s) t), RTuner (size (tuners s)))
                   | Err e => (s, RRaise e) end
  | Get i => (s, RDmds (tuner_get (tn i)))
  | Copy i => let '(h, a) := tuner_copy (heap s) (tn i) in (mkStore h (tuners s), RDmds a)
  | Select i c nl => let '(h, x) := tuner_select setlist argsort (heap s) (tn i) c nl in
                     (mkStore h (tuners s), of_res x)
  | Stabilize i lo hi => let '(h, x) := tuner_stabilize (heap s) (tn i) lo hi in
                         (mkStore h (tuners s), of_res x)
  end.

(** a sequence of calls of dmd_modes_tuner.py:398-538 *)
Definition run setlist argsort (s : store) (cs : seq cmd) : store :=
  foldl (fun s c => (step setlist argsort s c).1) s cs.

End Tuner.

Arguments NaN {C}.
Arguments PInf {C}.
Arguments NInf {C}.
Arguments Col {C}.
