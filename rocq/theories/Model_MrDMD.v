(** * pydmd/mrdmd.py: the binary tree, the splitting of the snapshots, the
      clamping of the depth, the time intervals of the leaves and the fit loop *)
From Coq Require Import List ZArith Lia Bool Arith QArith.
From Verif Require Import Py.
Import ListNotations.
Local Open Scope nat_scope.

(** ** BinaryTree (mrdmd.py:20-58)

    [depth] is a natural number: a negative [max_level] is not modelled. *)
Record btree (A : Type) := mkTree { bt_depth : nat; bt_slots : list (option A) }.
Arguments mkTree {A} _ _.
Arguments bt_depth {A} _.
Arguments bt_slots {A} _.

(** mrdmd.py:27-28: __len__ *)
Definition bt_len (depth : nat) : nat := 2 ^ (depth + 1) - 1.

(** mrdmd.py:23-25: __init__, every slot None *)
Definition bt_new {A} (depth : nat) : btree A :=
  mkTree depth (repeat None (bt_len depth)).

(** mrdmd.py:46, 50: the position of a (level, bin) pair *)
Definition bt_slot (level bin : Z) : Z := (2 ^ level + bin - 1)%Z.

(** mrdmd.py:30-46: __getitem__.  For a negative level [2**level] is a float
    in (0, 1): [bin >= 2**level] holds iff [bin >= 1], and otherwise the list
    is indexed by a float, a TypeError. *)
Definition bt_get {A} (t : btree A) (level bin : Z) : result (option A) :=
  if (Z.of_nat (bt_depth t) <? level)%Z then Err ValueError
  else if (level <? 0)%Z then Err (if (1 <=? bin)%Z then ValueError else TypeError)
  else if (2 ^ level <=? bin)%Z then Err ValueError
  else match norm_index (length (bt_slots t)) (bt_slot level bin) with
       | Some i => match nth_error (bt_slots t) i with
                   | Some o => Ok o
                   | None => Err IndexError
                   end
       | None => Err IndexError
       end.

(** mrdmd.py:48-50: __setitem__, with no check of its own *)
Definition bt_set {A} (t : btree A) (level bin : Z) (item : A) : result (btree A) :=
  if (level <? 0)%Z then Err TypeError
  else match norm_index (length (bt_slots t)) (bt_slot level bin) with
       | Some i => Ok (mkTree (bt_depth t) (upd (bt_slots t) i (Some item)))
       | None => Err IndexError
       end.

(** mrdmd.py:52-53: __iter__ *)
Definition bt_iter {A} (t : btree A) : list (option A) := bt_slots t.

(** mrdmd.py:55-57: levels *)
Definition bt_levels {A} (t : btree A) : list nat := seq 0 (bt_depth t + 1).

(** mrdmd.py:59-60: index_leaves *)
Definition bt_leaves (level : nat) : list nat := seq 0 (2 ^ level).

(** mrdmd.py:240-241, 259-260, 466-467: the nested loops over all the nodes *)
Definition bt_nodes {A} (t : btree A) : list (nat * nat) :=
  flat_map (fun level => map (fun leaf => (level, leaf)) (bt_leaves level)) (bt_levels t).

(** mrdmd.py:141, 342 with the indexes of index_leaves *)
Definition bt_get_nat {A} (t : btree A) (p : nat * nat) : result (option A) :=
  bt_get t (Z.of_nat (fst p)) (Z.of_nat (snd p)).
(** mrdmd.py:244 *)
Definition bt_set_nat {A} (t : btree A) (p : nat * nat) (a : A) : result (btree A) :=
  bt_set t (Z.of_nat (fst p)) (Z.of_nat (snd p)) a.

(** ** numpy.array_split along the snapshot axis (used at mrdmd.py:499)

    NumPy: [Neach, extras = divmod(N, n)]; [extras] sections of size
    [Neach + 1], then [n - extras] of size [Neach]; the dividing points are
    the cumulative sums; section i is [a[div[i]:div[i+1]]]. *)
Definition section_sizes (N n : nat) : list nat :=
  repeat (N / n + 1) (N mod n) ++ repeat (N / n) (n - N mod n).

(** np.cumsum in np.array_split, called at mrdmd.py:499 *)
Fixpoint nat_cumsum (a : nat) (l : list nat) : list nat :=
  match l with [] => [a] | x :: t => a :: nat_cumsum (a + x) t end.

(** np.array_split, called at mrdmd.py:499 *)
Definition div_points (N n : nat) : list nat := nat_cumsum 0 (section_sizes N n).

(** np.array_split, called at mrdmd.py:499 *)
Definition array_split {V} (X : list V) (n : nat) : list (list V) :=
  let div := div_points (length X) n in
  map (fun i => let st := nth i div 0 in
                let en := nth (i + 1) div 0 in
                firstn (en - st) (skipn st X))
      (seq 0 n).

(** ** The depth threshold (mrdmd.py:482-484)

    [int(np.log(T / 4.0) / np.log(2.0)) + 1]; [int] truncates towards zero, so
    for T = 3 the logarithm -0.41.. becomes 0.  The floating point logarithm is
    taken to be exact; that this is the truncated real logarithm is proved in
    Proofs_MrDMD_Log.v. *)
Definition trunc_log2_quarter (T : nat) : Z :=
  if 4 <=? T then Z.of_nat (Nat.log2 (T / 4))
  else if T =? 3 then 0%Z else if T =? 2 then (-1)%Z else (-2)%Z.
(** mrdmd.py:482-484 *)
Definition lvl_threshold (T : nat) : Z := (trunc_log2_quarter T + 1)%Z.

(** ** Time intervals (mrdmd.py:429-453) over exact rationals *)
Record interval := mkInterval { iv_t0 : Q; iv_tend : Q; iv_delta : Q }.

(** mrdmd.py:438-453 *)
Definition partial_time_interval (max_level : nat) (t0 tend : Q) (level leaf : nat)
  : result interval :=
  if max_level <? level then Err ValueError
  else if 2 ^ level <=? leaf then Err ValueError
  else
    let full_period := (tend - t0)%Q in
    let period := (full_period / inject_Z (Z.of_nat (2 ^ level)))%Q in
    let a := (t0 + period * inject_Z (Z.of_nat leaf))%Q in
    Ok (mkInterval a (a + period)%Q period).

(** Comparison of times, mrdmd.py:261-262 *)
Definition Qltb (a b : Q) : bool := negb (Qle_bool b a).

(** mrdmd.py:260-264: the selection test *)
Definition in_window (l : interval) (t0 tend : Q) : bool :=
  (Qle_bool (iv_t0 l) t0 && Qltb t0 (iv_tend l))
  || (Qltb (iv_t0 l) tend && Qle_bool tend (iv_tend l))
  || (Qle_bool t0 (iv_t0 l) && Qle_bool (iv_tend l) tend).

(** np.unique(axis=0) on pairs: sorted lexicographically, duplicates dropped. mrdmd.py:267 *)
Definition pair_ltb (p q : nat * nat) : bool :=
  (fst p <? fst q) || ((fst p =? fst q) && (snd p <? snd q)).
(** np.unique, mrdmd.py:267 *)
Fixpoint pinsert (p : nat * nat) (l : list (nat * nat)) : list (nat * nat) :=
  match l with
  | [] => [p]
  | q :: t => if pair_ltb p q then p :: l
              else if pair_ltb q p then q :: pinsert p t else l
  end.
(** mrdmd.py:267 *)
Definition unique_rows (l : list (nat * nat)) : list (nat * nat) := fold_right pinsert [] l.

(** mrdmd.py:257-265 *)
Fixpoint window_loop (max_level : nat) (T0 Tend t0 tend : Q) (nodes : list (nat * nat))
  : result (list (nat * nat)) :=
  match nodes with
  | [] => Ok []
  | p :: ps =>
      let! l := partial_time_interval max_level T0 Tend (fst p) (snd p) in
      let! r := window_loop max_level T0 Tend t0 tend ps in
      Ok (if in_window l t0 tend then p :: r else r)
  end.

(** mrdmd.py:246-268: time_window_bins; [T0], [Tend] are the entries of
    [original_time], [max_level] the depth of the tree *)
Definition time_window_bins {A} (t : btree A) (T0 Tend t0 tend : Q)
  : result (list (nat * nat)) :=
  let! idx := window_loop (bt_depth t) T0 Tend t0 tend (bt_nodes t) in
  Ok (unique_rows idx).

(** [self.dmd_tree[level, leaf]] followed by an attribute access: an empty
    slot is None, which has no such attribute. mrdmd.py:281, 342 *)
Definition node_at {A} (t : btree A) (p : nat * nat) : result A :=
  let! o := bt_get_nat t p in
  match o with Some a => Ok a | None => Err AttributeError end.

(** The comprehensions of mrdmd.py:281, 294, 308, 323, 342, 386, 406 *)
Fixpoint map_nodes {A B} (t : btree A) (f : A -> B) (ps : list (nat * nat)) : result (list B) :=
  match ps with
  | [] => Ok []
  | p :: ps' => let! a := node_at t p in
                let! r := map_nodes t f ps' in
                Ok (f a :: r)
  end.

(** np.concatenate and np.hstack of a list of arrays; of none a ValueError. mrdmd.py:281, 294, 342, 386, 406 *)
Definition concatenate {B} (l : list (list B)) : result (list B) :=
  match l with [] => Err ValueError | _ => Ok (concat l) end.

(** mrdmd.py:270-324: time_window_eigs, _frequency, _growth_rate, _amplitudes
    ([f] is the attribute read on each node) *)
Definition time_window_attr {A B} (t : btree A) (f : A -> list B) (T0 Tend t0 tend : Q)
  : result (list B) :=
  let! idx := time_window_bins t T0 Tend t0 tend in
  let! l := map_nodes t f idx in
  concatenate l.

(** ** The sub-DMDs

    The data live in a space of snapshots [vs_V] with scalars [vs_K] (one value
    of [vs_V] is one column).  [vs_cast] is [.astype(X.dtype)] (mrdmd.py:514). *)
Record vspace := mkVS {
  vs_V : Type; vs_K : Type;
  vs_add : vs_V -> vs_V -> vs_V; vs_sub : vs_V -> vs_V -> vs_V; vs_zero : vs_V;
  vs_kzero : vs_K; vs_smul : vs_K -> vs_V -> vs_V;
  vs_cast : vs_V -> vs_V }.

Section Fit.
Context (W : vspace) (E : Type) (cfg : Type).
Notation V := (vs_V W).
Notation K := (vs_K W).

(** one DMD mode of a leaf with its eigenvalue, amplitude and dynamics row. Read at mrdmd.py:281, 323, 342, 363 *)
Record mode := mkMode { md_vec : V; md_eig : E; md_amp : K; md_dyn : list K }.

(** a sub-DMD: its configuration, the number of its time steps and the modes
    that are active (none before the fit).  Sub-DMDs returned by a user
    supplied callable are assumed to be distinct objects. mrdmd.py:502-508 *)
Record node := mkNode { nd_cfg : cfg; nd_n : nat; nd_modes : list mode }.

(** Sums of dmdbase.py:334 *)
Fixpoint vsum (l : list V) : V :=
  match l with [] => vs_zero W | x :: t => vs_add W x (vsum t) end.

(** modes.dot(dynamics), column by column; [n] is the number of columns. dmdbase.py:334; mrdmd.py:427 *)
Definition dot (modes : list V) (dyn : list (list K)) (n : nat) : list V :=
  map (fun j => vsum (map (fun mr => vs_smul W (nth j (snd mr) (vs_kzero W)) (fst mr))
                          (combine modes dyn)))
      (seq 0 n).

(** dmdbase.py:327-334: reconstructed_data of a sub-DMD *)
Definition node_recon (a : node) : list V :=
  dot (map md_vec (nd_modes a)) (map md_dyn (nd_modes a)) (nd_n a).

(** Read at mrdmd.py:117, 281, 386 *)
Definition node_eigs (a : node) : list E := map md_eig (nd_modes a).
(** Read at mrdmd.py:323, 406 *)
Definition node_amplitudes (a : node) : list K := map md_amp (nd_modes a).

(** the leaf fit: what [current_dmd.fit(x)] computes is an oracle *)
Context (leaf_fit : cfg -> list V -> result (list mode)).
(** [|log(eig)| / (2*pi)], the number of cycles per snapshot of a mode *)
Context (cycles : E -> Q).

(** mrdmd.py:492-493: |log(eigs)| < rho * 2 * pi *)
Definition slow (rho : Q) (m : mode) : bool := Qltb (cycles (md_eig m)) rho.

(** mrdmd.py:503-509: fit one leaf and keep its slow modes.  A leaf with fewer
    than two snapshots is rejected by Snapshots (snapshots.py:31-32; no column at all: the reshape at 50). *)
Definition fit_node (max_cycles : Q) (a : node) (x : list V) : result node :=
  if length x <? 2 then Err ValueError
  else
    let! ms := leaf_fit (nd_cfg a) x in
    let rho := (max_cycles / inject_Z (Z.of_nat (length x)))%Q in
    Ok (mkNode (nd_cfg a) (length x) (filter (slow rho) ms)).

(** mrdmd.py:501-509: for leaf, x in enumerate(Xs) *)
Fixpoint fit_leaves (max_cycles : Q) (t : btree node) (level leaf : nat) (Xs : list (list V))
  : btree node * result unit :=
  match Xs with
  | [] => (t, Ok tt)
  | x :: rest =>
      match (let! a := node_at t (level, leaf) in
             let! a' := fit_node max_cycles a x in
             bt_set_nat t (level, leaf) a') with
      | Ok t' => fit_leaves max_cycles t' level (S leaf) rest
      | Err e => (t, Err e)
      end
  end.

(** np.hstack of the leaf reconstructions of one level (mrdmd.py:511-514 and
    139-142) *)
Definition level_recon (t : btree node) (level : nat) : result (list V) :=
  let! l := map_nodes t node_recon (map (fun leaf => (level, leaf)) (bt_leaves level)) in
  concatenate l.

(** X -= newX: ValueError when the numbers of columns differ. mrdmd.py:516 *)
Definition sub_cols (X Y : list V) : result (list V) :=
  if length X =? length Y then Ok (map (fun xy => vs_sub W (fst xy) (snd xy)) (combine X Y))
  else Err ValueError.

(** mrdmd.py:497-516: the loop over the levels; the residual is returned *)
Fixpoint fit_levels (max_cycles : Q) (t : btree node) (X : list V) (levels : list nat)
  : btree node * result (list V) :=
  match levels with
  | [] => (t, Ok X)
  | level :: rest =>
      match fit_leaves max_cycles t level 0 (array_split X (2 ^ level)) with
      | (t', Err e) => (t', Err e)
      | (t', Ok _) =>
          match (let! newX := level_recon t' level in
                 sub_cols X (map (vs_cast W) newX)) with
          | Ok X' => fit_levels max_cycles t' X' rest
          | Err e => (t', Err e)
          end
      end
  end.

(** mrdmd.py:150-226: the [dmd] argument *)
Inductive dmd_arg :=
| DCallable (f : nat -> nat -> result cfg)
| DSequence (l : list cfg)
| DInstance (c : cfg)
| DOther.

(** mrdmd.py:207-226: _dmd_builder; any other object leaves [builder_func]
    unassigned *)
Definition dmd_builder (d : dmd_arg) (max_level : nat)
  : result (nat -> nat -> result cfg) :=
  match d with
  | DCallable f => Ok f
  | DSequence l =>
      if length l =? max_level + 1
      then Ok (fun level _ => match nth_error l level with
                              | Some c => Ok c | None => Err IndexError end)
      else Err ValueError
  | DInstance c => Ok (fun _ _ => Ok c)
  | DOther => Err UnboundLocalError
  end.

(** mrdmd.py:75-79, 479, 518-520 *)
Record mrdmd := mkMr {
  mr_dmd : dmd_arg; mr_max_cycles : Q; mr_max_level : nat; mr_tree : btree node }.

(** mrdmd.py:238-244 *)
Fixpoint fill (f : nat -> nat -> result cfg) (t : btree node) (ps : list (nat * nat))
  : btree node * result unit :=
  match ps with
  | [] => (t, Ok tt)
  | p :: ps' =>
      match (let! c := f (fst p) (snd p) in bt_set_nat t p (mkNode c 0 [])) with
      | Ok t' => fill f t' ps'
      | Err e => (t, Err e)
      end
  end.

(** mrdmd.py:228-244: _build_tree; the tree is replaced before anything can
    fail *)
Definition build_tree (m : mrdmd) : mrdmd * result unit :=
  let t := bt_new (mr_max_level m) in
  let with_tree t := mkMr (mr_dmd m) (mr_max_cycles m) (mr_max_level m) t in
  match dmd_builder (mr_dmd m) (mr_max_level m) with
  | Err e => (with_tree t, Err e)
  | Ok f => let (t', r) := fill f t (bt_nodes t) in (with_tree t', r)
  end.

(** mrdmd.py:75-79: __init__ *)
Definition mr_init (d : dmd_arg) (max_level : nat) (max_cycles : Q) : result mrdmd :=
  match build_tree (mkMr d max_cycles max_level (bt_new max_level)) with
  | (m, Ok _) => Ok m
  | (_, Err e) => Err e
  end.

(** mrdmd.py:481-490: clamp the depth and rebuild the tree *)
Definition clamp_level (m : mrdmd) (T : nat) : mrdmd * result unit :=
  if (lvl_threshold T <? Z.of_nat (mr_max_level m))%Z
  then build_tree (mkMr (mr_dmd m) (mr_max_cycles m) (Z.to_nat (lvl_threshold T)) (mr_tree m))
  else (m, Ok tt).

(** mrdmd.py:470-522: fit.  The data have been through Snapshots, which wants
    at least two of them.  The value returned on success is the residual left
    in the local variable [X]. *)
Definition mr_fit (m : mrdmd) (X : list V) : mrdmd * result (list V) :=
  if length X <? 2 then (m, Err ValueError)
  else
    match clamp_level m (length X) with
    | (m', Err e) => (m', Err e)
    | (m', Ok _) =>
        let (t, r) := fit_levels (mr_max_cycles m') (mr_tree m') X (bt_levels (mr_tree m')) in
        (mkMr (mr_dmd m') (mr_max_cycles m') (mr_max_level m') t, r)
    end.

(** mrdmd.py:518-520: the time dictionaries after a fit of T snapshots:
    (t0, tend, dt) = (0, T, 1) *)
Definition mr_time (T : nat) : Q * Q * Q := (0%Q, inject_Z (Z.of_nat T), 1%Q).

(** np.sum(axis=0) of the array of level reconstructions. mrdmd.py:135-148 *)
Fixpoint sum_levels (l : list (list V)) (n : nat) : list V :=
  match l with
  | [] => repeat (vs_zero W) n
  | x :: t => map (fun xy => vs_add W (fst xy) (snd xy)) (combine x (sum_levels t n))
  end.

(** mrdmd.py:136-146 *)
Fixpoint level_recons (t : btree node) (levels : list nat) : result (list (list V)) :=
  match levels with
  | [] => Ok []
  | l :: rest => let! x := level_recon t l in
                 let! r := level_recons t rest in Ok (x :: r)
  end.

(** mrdmd.py:127-148: reconstructed_data *)
Definition mr_reconstructed (t : btree node) : result (list V) :=
  let! l := level_recons t (bt_levels t) in
  match l with
  | [] => Err ValueError
  | x :: _ => if forallb (fun y => length y =? length x) l then Ok (sum_levels l (length x))
              else Err ValueError
  end.

(** mrdmd.py:341, 364: which leaves a partial accessor visits *)
Definition partial_leaves (level : nat) (nd : option nat) : list (nat * nat) :=
  map (fun leaf => (level, leaf)) (match nd with None => bt_leaves level | Some k => [k] end).

(** mrdmd.py:326-342: partial_modes *)
Definition partial_modes (t : btree node) (level : nat) (nd : option nat) : result (list V) :=
  let! l := map_nodes t (fun a => map md_vec (nd_modes a)) (partial_leaves level nd) in
  concatenate l.

(** scipy.linalg.block_diag; a block is (rows, number of columns). Called at mrdmd.py:361 *)
Fixpoint block_diag_from (before : nat) (after : nat) (l : list (list (list K) * nat))
  : list (list K) :=
  match l with
  | [] => []
  | (rows, n) :: t =>
      let after' := after - n in
      map (fun r => repeat (vs_kzero W) before ++ r ++ repeat (vs_kzero W) after') rows
        ++ block_diag_from (before + n) after' t
  end.
(** Called at mrdmd.py:361 *)
Definition block_diag (l : list (list (list K) * nat)) : list (list K) :=
  block_diag_from 0 (fold_right (fun b s => snd b + s) 0 l) l.

(** mrdmd.py:344-367: the blocks of partial_dynamics *)
Definition partial_blocks (t : btree node) (level : nat) (nd : option nat) :=
  map_nodes t (fun a => (map md_dyn (nd_modes a), nd_n a)) (partial_leaves level nd).
(** mrdmd.py:360-367 *)
Definition partial_dynamics (t : btree node) (level : nat) (nd : option nat)
  : result (list (list K)) :=
  let! l := partial_blocks t level nd in
  Ok (block_diag l).

(** mrdmd.py:369-387: partial_eigs *)
Definition partial_eigs (t : btree node) (level : nat) (nd : option nat) : result (list E) :=
  let! l := map_nodes t node_eigs (partial_leaves level nd) in concatenate l.
(** mrdmd.py:404-407 *)
Definition partial_amplitudes (t : btree node) (level : nat) (nd : option nat) : result (list K) :=
  let! l := map_nodes t node_amplitudes (partial_leaves level nd) in concatenate l.

(** mrdmd.py:409-427: partial_reconstructed_data; the number of columns of the
    product is that of the block diagonal matrix *)
Definition partial_reconstructed (t : btree node) (level : nat) (nd : option nat)
  : result (list V) :=
  let! m := partial_modes t level nd in
  let! b := partial_blocks t level nd in
  let! d := partial_dynamics t level nd in
  Ok (dot m d (fold_right (fun b s => snd b + s) 0 b)).

(** the comprehensions over range(max_level + 1), mrdmd.py:93, 106 *)
Fixpoint over_levels {B} (f : nat -> result B) (levels : list nat) : result (list B) :=
  match levels with
  | [] => Ok []
  | l :: rest => let! x := f l in
                 let! r := over_levels f rest in Ok (x :: r)
  end.
(** mrdmd.py:85-94: modes *)
Definition mr_modes (m : mrdmd) : result (list V) :=
  let! l := over_levels (fun i => partial_modes (mr_tree m) i None) (seq 0 (mr_max_level m + 1)) in
  concatenate l.
(** mrdmd.py:97-107: dynamics, with the number of columns; np.vstack raises ValueError on nothing and on different numbers
    of columns *)
Definition mr_dynamics (m : mrdmd) : result (list (list K) * nat) :=
  let! l := over_levels (fun i => let! b := partial_blocks (mr_tree m) i None in
                                  let! d := partial_dynamics (mr_tree m) i None in
                                  Ok (d, fold_right (fun b s => snd b + s) 0 b)) (seq 0 (mr_max_level m + 1)) in
  match l with
  | [] => Err ValueError
  | x :: _ => if forallb (fun y => snd y =? snd x) l then Ok (concat (map fst l), snd x) else Err ValueError
  end.
(** mrdmd.py:110-117: eigs, over the slots of the tree *)
Fixpoint map_slots {B} (f : node -> B) (l : list (option node)) : result (list B) :=
  match l with
  | [] => Ok []
  | None :: _ => Err AttributeError
  | Some a :: t => let! r := map_slots f t in Ok (f a :: r)
  end.
(** mrdmd.py:110-117: eigs *)
Definition mr_eigs (m : mrdmd) : result (list E) :=
  let! l := map_slots node_eigs (bt_iter (mr_tree m)) in concatenate l.

End Fit.
