(** * mrCOSTS (mrcosts.py): the levels, the global bands, the reconstruction

    On top of Model_Costs.v; same conventions.  [verbose]=False (the prints, and the error they show, are left out).
    [np.max] of the ranks is taken over a list that is not empty. *)
From Coq Require Import QArith.
From mathcomp Require Import all_ssreflect all_fingroup all_algebra.
From Verif Require Import Py LinAlg Model_Operator Model_BOP Model_CostsWin Model_Costs.
From Verif Require Model_Utils.
Set Implicit Arguments. Unset Strict Implicit. Unset Printing Implicit Defensive.
Import GRing.Theory Num.Theory.
Local Open Scope ring_scope.

Section MrCosts.
Variable C : numClosedFieldType.
Variable np : numpy C.
Variable x : ext C.
Variable y : cext C.

(** ** The object *)
(** the interpolated eigenvalues of all levels (mrcosts.py:460-470): the window centres of the common axis, the columns
    that are kept, the number of levels, the entries (level, position on the axis, position among the columns);
    [None]: NaN *)
Record table := Table { da_times : seq C; da_cols : seq nat; da_levels : nat; da_val : nat -> nat -> nat -> option C }.

(** constructor arguments (mrcosts.py:49-60).  An entry [None] of n_components_array is NaN.  [mr_means]: the entry
    include_means of costs_recon_kwargs, True unless given.  The state (mrcosts.py:80-88); the options are shared with
    every level. *)
Record mrcosts n := MrCosts {
  mr_windows : seq BinNums.Z; mr_steps : seq BinNums.Z; mr_ranks : seq Model_Utils.rank_arg;
  mr_global : option (seq bool); mr_ncomp : option (seq (option nat)); mr_sweep : bool;
  mr_transform : option trans; mr_means : bool; mr_kw : kwargs C n;
  mr_ndec : option nat; mr_steps_n : nat; mr_levels : option (seq (costs C n));
  mr_omega : option table; mr_nglobal : option nat; mr_bands : option (seq C * seq nat) }.

(** __init__ (mrcosts.py:69-79) *)
Definition mr_new n win st rk gl nc sw tr means (kw : kwargs C n) : result (mrcosts n) :=
  if nc is Some l then
    if size l == size st then Ok (MrCosts win st rk gl nc sw tr means kw None 0 None None None None) else Err ValueError
  else Ok (MrCosts win st rk gl nc sw tr means kw None 0 None None None None).

(** ** fit *)
(** COSTS(svd_rank=rank, global_svd=..., pydmd_kwargs=...) (mrcosts.py:312-316) *)
Definition new_costs n (rk : Model_Utils.rank_arg) (g : bool) : costs C n :=
  Costs (CCfg (Some rk) g false false None false true None) no_wins None None.

(** mrd.cluster_hyperparameter_sweep() of a fitted level (costs.py:785-855): the default range comes from the integer
    svd_rank; a rank that is not an integer makes sklearn or argmax raise *)
Definition level_sweep n (c : costs C n) (tr : option trans) : result nat :=
  match c_fit c, cc_rank (c_cfg c) with
  | Some f, Some (Model_Utils.RInt z) => sweep y (flat_omega f) (BinInt.Z.to_nat z) None tr
  | _, _ => Err ValueError
  end.

(** the number of bands of level [idx] and the array afterwards (mrcosts.py:324-333) *)
Definition level_count n (sw : bool) (nc : option (seq (option nat))) (idx : nat) (c : costs C n) (tr : option trans)
    : result (nat * option (seq (option nat))) :=
  match nc with
  | None => Err TypeError
  | Some l =>
      if (idx < size l)%N then
        match (if sw then None else nth None l idx) with
        | Some k => Ok (k, nc)
        | None => let! k := level_sweep c tr in Ok (k, Some (set_nth None l idx (Some k)))
        end
      else Err IndexError
  end.

(** an array without NaN. mrcosts.py:352-355 *)
Definition matrix_of n T (g : 'I_n -> nat -> option C) : option 'M[C]_(n, T) :=
  if [forall i, [forall j : 'I_T, isSome (g i j)]] then Some (\matrix_(i, j) odflt 0 (g i j)) else None.

(** what the loop leaves: the levels, the options, the numbers of bands, the outcome. mrcosts.py:305-358 *)
Definition mr_state n : Type := (seq (costs C n) * kwargs C n * option (seq (option nat)) * result unit)%type.

(** the loop over the levels (mrcosts.py:305-358).  [D]: x_iter; [None] when it contains NaN, which np.linalg.svd
    refuses.  [None] as result: not enough fuel for BOPDMD. *)
Fixpoint mr_loop fuel n (sharp : C) T m (t : 'rV[C]_m) (sw inc : bool) (tr : option trans) (ndec : nat) (gl : seq bool)
    (lv : seq (BinNums.Z * BinNums.Z * Model_Utils.rank_arg)) (idx : nat) (D : option 'M[C]_(n, T)) (kw : kwargs C n)
    (nc : option (seq (option nat))) (acc : seq (costs C n)) : option (mr_state n) :=
  match lv with
  | [::] => Some (acc, kw, nc, Ok tt)
  | (w, st, rk) :: lv' =>
      if ~~ (idx < size gl)%N then Some (acc, kw, nc, Err IndexError)
      else match D with
      | None => Some (acc, kw, nc, Err LinAlgError)
      | Some X =>
          match fit np x y fuel (new_costs n rk (nth true gl idx)) kw sharp X t w st with
          | None => None
          | Some (_, kw1, Err e) => Some (acc, kw1, nc, Err e)
          | Some (c1, kw1, Ok _) =>
              match level_count sw nc idx c1 tr with
              | Err e => Some (acc, kw1, nc, Err e)
              | Ok (k, nc1) =>
                  match cluster_omega y c1 true k tr with
                  | Err e => Some (acc, kw1, nc1, Err e)
                  | Ok c2 =>
                      if (idx < ndec.-1)%N then
                        match scale_separation x c2 inc with
                        | Err e => Some (acc, kw1, nc1, Err e)
                        | Ok (lo, _) =>
                            @mr_loop fuel n sharp T m t sw inc tr ndec gl lv' idx.+1 (matrix_of T lo) kw1 nc1 (rcons acc c2)
                        end
                      else @mr_loop fuel n sharp T m t sw inc tr ndec gl lv' idx.+1 D kw1 nc1 (rcons acc c2)
                  end
              end
          end
      end
  end.

(** fit (mrcosts.py:271-358).  [zip] stops at the shortest list. *)
Definition mr_fit fuel n (o : mrcosts n) (sharp : C) T (X : 'M[C]_(n, T)) m (t : 'rV[C]_m) : option (mrcosts n * result unit) :=
  let ndec := size (mr_windows o) in
  let upd gl nc kw lev steps :=
    MrCosts (mr_windows o) (mr_steps o) (mr_ranks o) gl nc (mr_sweep o) (mr_transform o) (mr_means o) kw
            (Some ndec) steps lev (mr_omega o) (mr_nglobal o) (mr_bands o) in
  if mr_sweep o && isSome (mr_ncomp o) then
    Some (upd (mr_global o) (mr_ncomp o) (mr_kw o) (mr_levels o) (mr_steps_n o), Err ValueError)
  else
    let nc := if mr_sweep o then Some (nseq ndec None) else mr_ncomp o in
    let gl := if mr_global o is Some l then l else nseq ndec true in
    match mr_loop fuel sharp t (mr_sweep o) (mr_means o) (mr_transform o) ndec gl
            (zip (zip (mr_windows o) (mr_steps o)) (mr_ranks o)) 0 (Some X) (mr_kw o) nc [::] with
    | None => None
    | Some (lev, kw, nc', r) => Some (upd (Some gl) nc' kw (Some lev) T, r)
    end.

(** ** The eigenvalues of all levels on the axis of the first one *)
(** a level as xarray sees it (costs.py:1434-1506): window centres, number of columns, eigenvalues, classes.  The
    coordinate svd_rank has svd_rank entries: another number of columns raises ValueError. *)
Record level_ds := LevelDs { ds_times : seq C; ds_rank : nat; ds_omega : nat -> nat -> C; ds_cls : nat -> nat -> nat }.
(** costs.py:1476 *)
Definition centre n w (r : wres C n w) : C := (\sum_a wr_time r 0 a) / w%:R.
(** costs.py:1451-1486, mrcosts.py:424 *)
Definition to_ds n (c : costs C n) : result level_ds :=
  match c_fit c, c_bands c, cc_rank (c_cfg c) with
  | Some f, Some b, Some (Model_Utils.RInt z) =>
      if BinInt.Z.eqb z (BinInt.Z.of_nat (f_pre f)) then
        Ok (LevelDs [seq centre r | r <- f_res f] (f_pre f) (omega_at f) (ba_cls b))
      else Err ValueError
  | _, _, _ => Err ValueError
  end.
(** costs.py:1476-1477 *)
Definition ds_size (d : level_ds) : nat := size (ds_times d).
(** omega.where(omega_classes > 0, drop=True): the windows and the columns that keep at least one entry.
    mrcosts.py:427, 439 *)
Definition kept_rows (d : level_ds) : seq nat :=
  [seq k <- iota 0 (ds_size d) | has (fun c => 0 < ds_cls d k c)%N (iota 0 (ds_rank d))].
(** mrcosts.py:427, 439 *)
Definition kept_cols (d : level_ds) : seq nat :=
  [seq c <- iota 0 (ds_rank d) | has (fun k => 0 < ds_cls d k c)%N (iota 0 (ds_size d))].
(** mrcosts.py:427, 439 *)
Definition fast_entry (d : level_ds) (k c : nat) : option C :=
  if (c < ds_rank d)%N && (0 < ds_cls d k c)%N then Some (ds_omega d k c) else None.
(** mrcosts.py:427, 439 *)
Definition row_times (d : level_ds) : seq C := [seq nth 0 (ds_times d) k | k <- kept_rows d].

(** the middles between neighbours. for method="nearest", mrcosts.py:443-451, 506 *)
Definition middles (l : seq C) : seq C := pairmap (fun a b => (a + b) / 2%:R) (head 0 l) (behead l).
(** the nearest entry of an increasing axis; at the same distance the smaller one (scipy.interpolate, "nearest") or the
    larger one (pandas get_indexer, "nearest"). mrcosts.py:443-451 *)
Definition nearest_lo (l : seq C) (v : C) : nat := seq.count (fun b => b < v) (middles l).
(** mrcosts.py:504-507 *)
Definition nearest_hi (l : seq C) (v : C) : nat := seq.count (fun b => b <= v) (middles l).
(** what xarray's interp and sel need, mrcosts.py:443-451, 506 *)
Definition increasing (l : seq C) : bool := sorted <%O l.

(** da.interp(window_time_means=..., method="nearest") (mrcosts.py:443-451): no extrapolation *)
Definition interp_at (q : seq C) (v : C) : option nat :=
  if (head 0 q <= v) && (v <= last 0 q) then Some (nearest_lo q v) else None.
(** interp_fill (mrcosts.py:361-413): the rows before the first and after the last window, up to half of the distance
    of the first two windows.  IndexError with a single window, and when no row is inside. *)
Definition fill (q : seq C) (axis : seq C) : result (seq (option nat)) :=
  if (size q < 2)%N then Err IndexError
  else
    let delta := nth 0 q 1 - nth 0 q 0 in
    let rows := [seq interp_at q v | v <- axis] in
    match pmap id rows with
    | [::] => Err IndexError
    | a :: _ =>
        let rows1 := [seq if (head 0 q - delta / 2%:R < p.1) && (p.1 < head 0 q) then Some a else p.2 | p <- zip axis rows] in
        let b := last 0%N (pmap id rows1) in
        Ok [seq if (p.1 < last 0 q + delta / 2%:R) && (last 0 q < p.1) then Some b else p.2 | p <- zip axis rows1]
    end.

(** for one level: which of its windows every row of the common axis shows. mrcosts.py:438-458 *)
Fixpoint sources (axis : seq C) (l : seq level_ds) : result (seq (seq (option nat))) :=
  match l with
  | [::] => Ok [::]
  | d :: l' =>
      let! s := fill (row_times d) axis in
      let! rest := sources axis l' in
      Ok ([seq omap (fun j => nth 0%N (kept_rows d) j) o | o <- s] :: rest)
  end.

(** multi_res_interp (mrcosts.py:415-470).  xr.concat aligns the axes by union: with a second level that is the whole
    axis of the first one, without it only its kept windows.  The coordinate window_length must have one entry per
    level.  Simplification: centres that do not increase (times given backwards, or windows with the same centre)
    raise ValueError. *)
Definition union_cols (l : seq level_ds) : seq nat :=
  [seq c <- iota 0 (foldr maxn 0%N [seq ds_rank d | d <- l]) | has (fun d => c \in kept_cols d) l].
(** mrcosts.py:415-470 *)
Definition interp (windows : nat) (l : seq level_ds) : result table :=
  match l with
  | [::] => Err IndexError
  | d0 :: l' =>
      if ~~ all (fun d => increasing (ds_times d)) l then Err ValueError
      else
        let! src := sources (ds_times d0) l' in
        if windows == size l then
          let rows := if l' is [::] then kept_rows d0 else iota 0 (ds_size d0) in
          let cols := union_cols l in
          Ok (Table [seq nth 0 (ds_times d0) k | k <- rows] cols (size l)
                (fun d p q =>
                   let c := nth 0%N cols q in
                   if (d == 0)%N then fast_entry d0 (nth 0%N rows p) c
                   else if nth None (nth [::] src d.-1) p is Some k then fast_entry (nth d0 l d) k c else None))
        else Err ValueError
  end.

(** the list comprehensions of mrcosts.py:424, 499 *)
Fixpoint all_ok (A B : Type) (f : A -> result B) (l : seq A) : result (seq B) :=
  match l with
  | [::] => Ok [::]
  | a :: l' => let! b := f a in let! t := all_ok f l' in Ok (b :: t)
  end.

(** the entries that are not NaN, in the order of [values[~isnan]]. mrcosts.py:481 *)
Definition positions (da : table) : seq (nat * nat * nat) :=
  [seq p <- [seq (dk, q) | dk <- [seq (d, k) | d <- iota 0 (da_levels da), k <- iota 0 (size (da_times da))], q <- iota 0 (size (da_cols da))]
   | isSome (da_val da p.1.1 p.1.2 p.2)].
(** mrcosts.py:778-845 (the argument of the clustering) *)
Definition flat_values (da : table) : seq C :=
  [seq odflt 0 (da_val da p.1.1 p.1.2 p.2) | p <- positions da].

(** multi_res_deterp (mrcosts.py:472-512): the class of every eigenvalue of every window of the levels; [None]: -1 *)
Definition deterp (da : table) (cls : seq nat) (l : seq level_ds) : result (seq (nat -> nat -> option nat)) :=
  if size cls != size (positions da) then Err ValueError
  else if (size l < da_levels da)%N then Err IndexError
  else if ~~ increasing (da_times da) || (size (da_times da) == 0)%N then Err ValueError
  else
    Ok [seq (fun k q =>
               let p := (d, nearest_hi (da_times da) (nth 0 (ds_times (nth (LevelDs [::] 0 (fun _ _ => 0) (fun _ _ => 0%N)) l d)) k), q) in
               if p \in positions da then Some (nth 0%N cls (index p (positions da))) else None)
       | d <- iota 0 (da_levels da)].

(** ** Global clustering. assignments of mrcosts.py:470, 914-976 *)
Definition mr_upd n (o : mrcosts n) om ng ba : mrcosts n :=
  MrCosts (mr_windows o) (mr_steps o) (mr_ranks o) (mr_global o) (mr_ncomp o) (mr_sweep o) (mr_transform o) (mr_means o)
          (mr_kw o) (mr_ndec o) (mr_steps_n o) (mr_levels o) om ng ba.

(** the eigenvalues that are clustered (mrcosts.py:811-812): computed once *)
Definition mr_table n (o : mrcosts n) : result table :=
  match mr_omega o with
  | Some da => Ok da
  | None =>
      match mr_levels o with
      | None => Err TypeError
      | Some lev => let! l := all_ok (@to_ds n) lev in interp (size (mr_windows o)) l
      end
  end.
(** _global_cluster (mrcosts.py:778-845), with a clustering class that has fit_predict *)
Definition mr_cluster n (o : mrcosts n) (da : table) (k : nat) (tr : option trans) : result (seq C * seq nat) :=
  let tr' := if tr is Some _ then tr else mr_transform o in
  cluster_values y k (mr_transform_omega y tr' (flat_values da)).
(** global_cluster_omega (mrcosts.py:915-976): the stored results are also the returned ones *)
Definition global_cluster_omega n (o : mrcosts n) (k : option nat) (tr : option trans) : mrcosts n * result (seq C * seq nat) :=
  match (if k is Some _ then k else mr_nglobal o) with
  | None => (o, Err ValueError)
  | Some k' =>
      match mr_table o with
      | Err e => (mr_upd o (mr_omega o) (Some k') (mr_bands o), Err e)
      | Ok da =>
          match mr_cluster o da k' tr with
          | Err e => (mr_upd o (Some da) (Some k') (mr_bands o), Err e)
          | Ok r => (mr_upd o (Some da) (Some k') (Some r), Ok r)
          end
      end
  end.
(** global_cluster_hyperparameter_sweep (mrcosts.py:847-913), silhouette score *)
Fixpoint mr_scores n (o : mrcosts n) (da : table) (tr : option trans) (ns : seq nat) : result (seq C) :=
  match ns with
  | [::] => Ok [::]
  | k :: ns' =>
      let! (_, cls) := mr_cluster o da k tr in
      let! l0 := mr_transform_omega y (if tr is Some _ then tr else mr_transform o) (flat_values da) in
      let! l := all_finite l0 in
      let! rest := @mr_scores n o da tr ns' in
      Ok (y_score y l cls :: rest)
  end.
(** mrcosts.py:848-913 *)
Definition global_sweep n (o : mrcosts n) (ns : seq nat) (tr : option trans) : mrcosts n * result nat :=
  if ns is [::] then (o, Err ValueError)
  else match mr_table o with
  | Err e => (o, Err e)
  | Ok da =>
      let o1 := mr_upd o (Some da) (mr_nglobal o) (mr_bands o) in
      match mr_scores o da tr ns with
      | Err e => (o1, Err e)
      | Ok sc => if argmax_first sc is Some i then (mr_upd o (Some da) (Some (nth 0%N ns i)) (mr_bands o), Ok (nth 0%N ns i))
                 else (o1, Err ValueError)
      end
  end.

(** ** Reconstruction *)
(** one global band of one window (mrcosts.py:1063-1103): measured from the first instant, without the means, stored
    in an array of real numbers *)
Definition global_band (cls : nat -> nat -> option nat) n w (k : nat) (r : wres C n w) (pre j : nat) (i : 'I_n) (a : 'I_w) : C :=
  'Re (band_sum x r (pad (wr_time r) 0) pre (fun c => cls k c == Some j) i a).
(** the number of classes handed to a window (mrcosts.py:1053-1055) *)
Definition handed_classes (ranks : seq Model_Utils.rank_arg) (cols rank : nat) : nat :=
  if has (fun rk => Model_Utils.Qltb (inject_Z (BinInt.Z.of_nat rank)) (Model_Utils.rank_val rk)) ranks then minn cols rank else cols.
(** one level (mrcosts.py:1041-1117).  Another number of classes than of columns raises IndexError, unless there is no
    window or no band. *)
Definition level_bands n (ranks : seq Model_Utils.rank_arg) (ng cols : nat) (c : costs C n) (cls : nat -> nat -> option nat)
    : result (nat -> 'I_n -> nat -> option C) :=
  match c_fit c with
  | Some f =>
      let! ls := all_windows (c_win c) in
      if (0 < ng)%N && (0 < size (f_res f))%N && (handed_classes ranks cols (f_pre f) != f_pre f) then Err IndexError
      else if all (fun l => size l == f_w f) ls && (size ls == size (f_res f)) then
        Ok (fun j i s => quot (numerator x ls (f_res f) (iota 0 ng) (fun k r => global_band cls k r (f_pre f)) j i s)
                              (denominator x (f_w f) ls s))
      else Err ValueError
  | None => Err TypeError
  end.
(** mrcosts.py:1041-1117 *)
Fixpoint all_bands n (ranks : seq Model_Utils.rank_arg) (ng cols : nat) (lev : seq (costs C n)) (cl : seq (nat -> nat -> option nat))
    : result (seq (nat -> 'I_n -> nat -> option C)) :=
  match lev, cl with
  | [::], _ => Ok [::]
  | c :: lev', cls :: cl' =>
      let! g := level_bands ranks ng cols c cls in
      let! rest := @all_bands n ranks ng cols lev' cl' in
      Ok (g :: rest)
  | _ :: _, [::] => Err IndexError
  end.
(** global_scale_reconstruction (mrcosts.py:1016-1119): one entry per level that was fitted, the others are zero *)
Definition global_scale_reconstruction n (o : mrcosts n) : result (nat -> nat -> 'I_n -> nat -> option C) :=
  match mr_ndec o, mr_nglobal o with
  | Some ndec, Some ng =>
      match mr_omega o, mr_bands o, mr_levels o with
      | Some da, Some (_, cls), Some lev =>
          let! l := all_ok (@to_ds n) lev in
          let! cl := deterp da cls l in
          let! gs := all_bands (mr_ranks o) ng (size (da_cols da)) lev cl in
          if (size gs <= ndec)%N then Ok (fun d j i s => nth (fun _ _ _ => Some 0) gs d j i s) else Err IndexError
      | None, _, _ => Err AttributeError
      | _, _, _ => Err TypeError
      end
  | _, _ => Err TypeError
  end.
(** get_background (mrcosts.py:1121-1130) *)
Definition get_background n (o : mrcosts n) : result ('I_n -> nat -> option C) :=
  match mr_levels o with
  | None => Err TypeError
  | Some lev =>
      if lev is c0 :: _ then
        let c := last c0 lev in
        let! g := scale_reconstruction x c true in
        match c_bands c with
        | Some b => if ba_n b == 0%N then Err IndexError else Ok (g 0%N)
        | None => Err TypeError
        end
      else Err IndexError
  end.
(** global_reconstruction (mrcosts.py:1132-1143) *)
Definition mr_reconstruction n (o : mrcosts n) : result ('I_n -> nat -> option C) :=
  let! g := global_scale_reconstruction o in
  let! b := get_background o in
  match mr_ndec o, mr_nglobal o with
  | Some ndec, Some ng =>
      Ok (fun i s => oadd (osum [seq osum [seq g d j i s | j <- iota 0 ng] | d <- iota 0 ndec]) (b i s))
  | _, _ => Err TypeError
  end.
End MrCosts.
