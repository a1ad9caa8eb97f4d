(** * COSTS and mrCOSTS (costs.py, mrcosts.py): fit, clustering, reconstruction

    Exact arithmetic over a closed numeric field.  [np], [x]: as in Model_BOP.v.  The window layout is in
    Model_CostsWin.v.  Arrays with several axes are functions of their indexes. *)
From Coq Require Import QArith.
From mathcomp Require Import all_ssreflect all_fingroup all_algebra.
From Verif Require Import Py LinAlg Model_Operator Model_BOP Model_CostsWin.
From Verif Require Model_Utils.
Set Implicit Arguments. Unset Strict Implicit. Unset Printing Implicit Defensive.
Import GRing.Theory Num.Theory.
Local Open Scope ring_scope.

Section Costs.
Variable C : numClosedFieldType.
Variable np : numpy C.
Variable x : ext C.

(** the externals of COSTS. costs.py:326-337, 355-358, 716-730, 733, 768, 850, 999; mrcosts.py:826-845 *)
Record cext := CExt {
  (* int(w * (T / w)) in floating point *)
  y_fl : BinNums.Z -> BinNums.Z -> BinNums.Z;
  (* np.tanh, np.log10 on positive numbers *)
  y_tanh : C -> C;
  y_log10 : C -> C;
  (* np.argsort *)
  y_argsort : seq C -> seq nat;
  (* method(n_clusters=n, random_state=0).fit_predict on real numbers: the labels and cluster_centers_ *)
  y_kmeans : nat -> seq C -> seq nat * seq C;
  (* silhouette_score of labelled real numbers *)
  y_score : seq C -> seq nat -> C }.
Variable y : cext.

(** ** Kernels *)
(** calculate_lv_kern (costs.py:309-339) *)
Definition lv_kern (sharp : C) (w j : nat) : C :=
  y_tanh y (sharp * (j%:R / w%:R)) - y_tanh y (sharp * (j%:R - w%:R - 1) / w%:R) - 1.
(** build_kern (costs.py:341-359) *)
Definition build_kern (w j : nat) : C :=
  x_exp x (- ((j%:R - (w%:R - 1) / 2%:R) ^+ 2) / (w%:R / 8%:R) ^+ 2).

(** ** The object *)
(** constructor arguments (costs.py:75-135).  [cluster_centroids] is not among them: line 120 overwrites it.
    [svd_rank]: None unless given. *)
Record ccfg := CCfg {
  cc_rank : option Model_Utils.rank_arg; cc_global : bool; cc_art : bool; cc_last : bool;
  cc_alpha : option {r & 'rV[C]_r}; cc_reset : bool; cc_even : bool; cc_max : option nat }.
(** [pydmd_kwargs]: the projection basis and the other BOPDMD options. costs.py:121-136 *)
Record kwargs n := Kw { kw_basis : option {q & 'M[C]_(n, q)}; kw_cfg : bop_cfg C }.

(** the results of one window, as stored by costs.py:592-599 *)
Record wres n w := WRes {
  wr_r : nat; wr_modes : 'M[C]_(n, wr_r); wr_eigs : 'rV[C]_wr_r; wr_amps : 'rV[C]_wr_r;
  wr_mean : 'cV[C]_n; wr_time : 'rV[C]_w }.
(** the arrays of a fitted object. costs.py:522-534 *)
Record fitted n := Fitted { f_w : nat; f_pre : nat; f_res : seq (wres n f_w) }.
(** the frequency bands: _n_components, _omega_classes, _cluster_centroids. costs.py:111-122, 730-739 *)
Record bands := Bands { ba_n : nat; ba_cls : nat -> nat -> nat; ba_cent : seq C }.

(** the whole object. costs.py:75-136 *)
Record costs n := Costs {
  c_cfg : ccfg; c_win : wins; c_fit : option (fitted n); c_bands : option bands }.

(** entry [c] of a row of length r stored in a longer row of zeros. costs.py:528-533, 593-597 *)
Definition pad r (v : 'rV[C]_r) (c : nat) : C := if insub c is Some i then v 0 i else 0.

(** ** Windows of the data. [X[i, s]], for costs.py:559-560 *)
Definition cell n T (X : 'M[C]_(n, T)) (i : 'I_n) (s : nat) : C := if insub s is Some s' then X i s' else 0.
(** data[:, l] for the list of columns [l], costs.py:558-560 *)
Definition cut n T (X : 'M[C]_(n, T)) w (l : seq nat) : 'M[C]_(n, w) := \matrix_(i, j) cell X i (nth 0%N l j).
(** costs.py:567 *)
Definition wmean n w (X : 'M[C]_(n, w)) : 'cV[C]_n := \col_i ((\sum_j X i j) / w%:R).
(** costs.py:566-571 *)
Definition winput (sharp : C) n w (X : 'M[C]_(n, w)) : 'M[C]_(n, w) :=
  \matrix_(i, j) ((X i j - wmean X i 0) * lv_kern sharp w j).
(** costs.py:562-564 *)
Definition wtime w (t : 'rV[C]_w) : 'rV[C]_w := \row_j (t 0 j - pad t 0).

(** the windows of the object, one list of columns per window. costs.py:554-560, 615-630 *)
Definition all_windows (s : wins) : result (seq (seq nat)) :=
  match w_slides s with
  | Some N => foldr (fun k r => let! l := window s k in let! t := r in Ok (l :: t)) (Ok [::]) (iota 0 (BinInt.Z.to_nat N))
  | None => Err TypeError
  end.

(** ** Ranks *)
(** [svd_rank % 2] is not zero: for a number that is not an integer always. costs.py:501, 580 *)
Definition is_odd (rk : Model_Utils.rank_arg) : bool :=
  match rk with
  | Model_Utils.RInt z => BinInt.Z.odd z
  | Model_Utils.RNum q => let h := Qdiv q (inject_Z (Zpos (xO xH))) in ~~ Qeq_bool h (inject_Z (Qround.Qfloor h))
  end.
(** compute_rank: costs.py:386, 498, 509, 578 *)
Definition rank_of n m (X : 'M[C]_(n, m)) (rk : Model_Utils.rank_arg) : nat := np_rank np (np_svd np X).1.2 n m rk.

(** costs.py:491-520: the number of columns allocated, the options with the basis stored, the configuration.
    [self._svd_rank = k], costs.py:386, 498 *)
Definition set_cc_rank (g : ccfg) (k : nat) : ccfg :=
  CCfg (Some (Model_Utils.RInt (BinInt.Z.of_nat k))) (cc_global g) (cc_art g) (cc_last g) (cc_alpha g) (cc_reset g)
       (cc_even g) (cc_max g).
(** [self._init_alpha = a], costs.py:537 *)
Definition set_cc_alpha (g : ccfg) a : ccfg :=
  CCfg (cc_rank g) (cc_global g) (cc_art g) (cc_last g) a (cc_reset g) (cc_even g) (cc_max g).
(** costs.py:491-520 *)
Definition allocate n T (g : ccfg) (kw : kwargs n) (X : 'M[C]_(n, T)) : result (ccfg * kwargs n * nat) :=
  match cc_rank g with
  | None => Err TypeError
  | Some rk =>
      if cc_global g then
        (* _build_proj_basis (costs.py:376-388), then lines 492-499: the second compute_rank sees the first one *)
        let k1 := rank_of X rk in
        let k2 := rank_of X (Model_Utils.RInt (BinInt.Z.of_nat k1)) in
        Ok (set_cc_rank g k2, Kw (Some (existT _ _ (sv_U (compute_svd np X rk)))) (kw_cfg kw), k2)
      else if Model_Utils.Qltb (inject_Z Z0) (Model_Utils.rank_val rk) then
        if cc_even g && is_odd rk then Err ValueError
        else if Model_Utils.Qltb (inject_Z (BinInt.Z.of_nat n)) (Model_Utils.rank_val rk) then Err ValueError
        else Ok (g, kw, rank_of X rk)
      else match cc_max g with
           | Some m => Ok (g, kw, m)
           | None => Ok (g, kw, n)
           end
  end.

(** _build_initialization (costs.py:390-427); [bs]: clusters kept from an earlier fit.  The second test of line 415
    is never reached.  Simplification: the number of initial eigenvalues is the one of the code when svd_rank is a
    multiple of n_components and n_components divides it evenly; other sizes raise ValueError when the two factors
    do not have the same length. *)
Definition initialization (g : ccfg) (bs : option bands) : result (option {r & 'rV[C]_r}) :=
  match cc_alpha g with
  | Some a => Ok (if cc_art g then Some a else None)
  | None =>
      match bs with
      | Some b =>
          if cc_art g then
            match cc_rank g with
            | Some (Model_Utils.RInt z) =>
                if ba_n b == 0%N then Err ZeroDivisionError
                else
                  let m := (BinInt.Z.to_nat z %/ ba_n b)%N in
                  if (size (ba_cent b) * m)%N == (2 * m)%N then
                    Ok (Some (existT _ (2 * m)%N
                      (\row_j ((-1) ^+ (nat_of_ord j) * ('i * sqrtC (nth 0 (ba_cent b) (nat_of_ord j %/ m)%N))))))
                  else Err ValueError
            | _ => Err TypeError
            end
          else Ok None
      | None => Ok None
      end
  end.

(** ** The loop over the windows (costs.py:553-613) *)
(** BOPDMD(svd_rank, init_alpha, ...) (costs.py:539-544) *)
Definition start_dmd n (kw : kwargs n) rk alpha : bop C n := Bop (kw_cfg kw) rk (kw_basis kw) alpha None None None.
(** costs.py:584-587 *)
Definition with_rank n (d : bop C n) (rk : Model_Utils.rank_arg) basis : bop C n :=
  Bop (b_cfg d) rk basis (b_alpha d) (b_snap d) (b_time d) (b_op d).
(** costs.py:605-613 *)
Definition with_alpha n (d : bop C n) alpha : bop C n :=
  Bop (b_cfg d) (b_rank d) (b_basis d) alpha (b_snap d) (b_time d) (b_op d).
(** the rank of a window (costs.py:574-587) *)
Definition window_rank (g : ccfg) n w (X : 'M[C]_(n, w)) (rk : Model_Utils.rank_arg) : nat :=
  let k := rank_of X rk in
  let k1 := if cc_even g && odd k then k.+1 else k in
  if cc_max g is Some m then minn k1 m else k1.

(** one window: the BOPDMD object before the fit. costs.py:574-587 *)
Definition prepare (g : ccfg) n (kw : kwargs n) w (Xw : 'M[C]_(n, w)) rk (d : bop C n) : bop C n :=
  if cc_global g then d
  else with_rank d (Model_Utils.RInt (BinInt.Z.of_nat (window_rank g Xw rk))) (kw_basis kw).
(** the BOPDMD object after the fit (costs.py:601-613) *)
Definition after (g : ccfg) n (alpha : option {r & 'rV[C]_r}) (d : bop C n) r (e : 'rV[C]_r) : bop C n :=
  if cc_global g then d
  else if ~~ cc_last g && ~~ cc_reset g then with_alpha d alpha
  else if cc_last g then with_alpha d (Some (existT _ r e))
  else with_alpha d None.
(** BOPDMD.fit on a window, with its time instants flattened (a single instant has no axis left). costs.py:590 *)
Definition fit_window (fuel : nat) n w (d : bop C n) (Xw : 'M[C]_(n, w)) (t : 'rV[C]_w) : option (bop C n * result unit) :=
  bop_fit np x fuel d Xw true t.

(** costs.py:554-613 *)
Fixpoint fit_loop (fuel : nat) (g : ccfg) n (kw : kwargs n) (sharp : C) T (X : 'M[C]_(n, T)) (t : 'rV[C]_T) w (pre : nat)
    rk alpha (ls : seq (seq nat)) (d : bop C n) : option (result (seq (wres n w))) :=
  match ls with
  | [::] => Some (Ok [::])
  | l :: ls' =>
      let D := cut X w l in
      let tw := cut t w l in
      let Xw := winput sharp D in
      match fit_window fuel (prepare g kw Xw rk d) Xw (wtime tw) with
      | None => None
      | Some (_, Err e) => Some (Err e)
      | Some (d1, Ok _) =>
          match b_op d1 with
          | Some (Some (existT q (existT r u))) =>
              if (pre < r)%N then Some (Err ValueError)
              else
                let res := WRes (bo_modes u) (bo_eigs u) (bo_b u) (wmean D) tw in
                match @fit_loop fuel g n kw sharp T X t w pre rk alpha ls' (after g alpha d1 (bo_eigs u)) with
                | None => None
                | Some r' => Some (let! t' := r' in Ok (res :: t'))
                end
          | _ => Some (Err ValueError)
          end
      end
  end.

(** ** fit (costs.py:429-613).  The object and the (shared) options afterwards; [None]: not enough fuel for the
    trials of BOPDMD.  An exception in the loop leaves partly filled arrays: here the old ones (simplification). *)
Definition fit (fuel : nat) n (c : costs n) (kw : kwargs n) (sharp : C) T (X : 'M[C]_(n, T)) m (t : 'rV[C]_m)
    (w step : BinNums.Z) : option (costs n * kwargs n * result unit) :=
  let (s1, r1) := fit_windows (y_fl y) (c_win c) (BinInt.Z.of_nat n) (BinInt.Z.of_nat T) (BinInt.Z.of_nat m) w step in
  let c1 := Costs (c_cfg c) s1 (c_fit c) (c_bands c) in
  match r1, @eqP _ m T with
  | Ok _, ReflectT e =>
      match allocate (c_cfg c) kw X with
      | Err e => Some (c1, kw, Err e)
      | Ok (g, kw1, pre) =>
          match initialization g (c_bands c) with
          | Err e => Some (Costs g s1 (c_fit c) (c_bands c), kw1, Err e)
          | Ok alpha =>
              let c2 := Costs (set_cc_alpha g alpha) s1 (c_fit c) (c_bands c) in
              match all_windows s1, cc_rank g with
              | Ok ls, Some rk =>
                  let w' := BinInt.Z.to_nat w in
                  match fit_loop fuel g kw1 sharp X (castmx (erefl, e) t) w' pre rk alpha ls (start_dmd kw1 rk alpha) with
                  | None => None
                  | Some (Err e) => Some (c2, kw1, Err e)
                  | Some (Ok rs) => Some (Costs (set_cc_alpha g alpha) s1 (Some (@Fitted n w' pre rs)) (c_bands c), kw1, Ok tt)
                  end
              | Err e, _ => Some (c2, kw1, Err e)
              | _, None => Some (c2, kw1, Err TypeError)
              end
          end
      end
  | Err e, _ => Some (c1, kw, Err e)
  | _, _ => Some (c1, kw, Err ValueError)
  end.

(** ** Clustering. costs.py:741-781 *)
Inductive trans := Absolute | Squares | Log10 | Period | OtherTrans.
(** costs.py:768, 775 *)
Definition abs_im (z : C) : C := `|'Im z|.
(** the smallest entry of a list of real numbers. costs.py:770 *)
Definition smallest (l : seq C) : option C := ohead [seq a <- l | all (fun b => a <= b) l].
(** the log10 of the nonzero entries; zeros get the smallest of them (costs.py:767-771, mrcosts.py:1004-1007).
    min() of an empty array raises ValueError. *)
Definition log_freqs (l : seq C) : result (seq (option C)) :=
  match smallest [seq y_log10 y (abs_im z) | z <- l & abs_im z != 0] with
  | Some m => Ok [seq Some (if abs_im z == 0 then m else y_log10 y (abs_im z)) | z <- l]
  | None => Err ValueError
  end.
(** transform_omega (costs.py:741-783); [None] in the result is an infinity *)
Definition transform_named (tr : trans) (l : seq C) : result (seq (option C)) :=
  match tr with
  | Absolute => Ok [seq Some (abs_im z) | z <- l]
  | Squares => Ok [seq Some ('Im z ^+ 2) | z <- l]
  | Log10 => log_freqs l
  | Period => Ok [seq if abs_im z == 0 then None else Some (abs_im z)^-1 | z <- l]
  | OtherTrans => Err ValueError
  end.
(** costs.py:741-783; None is the argument None *)
Definition transform_omega (tr : option trans) (l : seq C) : result (seq (option C)) :=
  if tr is Some t then transform_named t l else Err ValueError.
(** mrCOSTS.transform_omega (mrcosts.py:978-1014) *)
Definition mr_transform_omega (tr : option trans) (l : seq C) : result (seq (option C)) :=
  transform_named (if tr is Some t then t else Absolute) l.

(** sklearn refuses infinities. costs.py:726 *)
Definition all_finite (l : seq (option C)) : result (seq C) := if all isSome l then Ok (pmap id l) else Err ValueError.

(** [lut[idx] = v] on an array of zeros. costs.py:734-735 *)
Definition lut_of (idx : seq nat) (v : seq nat) : seq nat :=
  foldl (fun l p => set_nth 0%N l p.1 p.2) (nseq (size idx) 0%N) (zip idx v).
(** the relabelling (costs.py:732-737, mrcosts.py:838-843) *)
Definition relabel (n : nat) (labels : seq nat) (cent : seq C) : result (seq C * seq nat) :=
  let idx := y_argsort y cent in
  if (n == size idx) || (n == 1%N) then
    let lut := lut_of idx (if n == size idx then iota 0 n else nseq (size idx) 0%N) in
    if all (fun j => j < size lut)%N labels then
      Ok ([seq nth 0 cent i | i <- idx], [seq nth 0%N lut j | j <- labels])
    else Err IndexError
  else Err ValueError.
(** after transform_omega: _cluster (costs.py:716-739) and _global_cluster (mrcosts.py:826-845).  sklearn refuses
    no cluster, or more clusters than values. *)
Definition cluster_values (n : nat) (tr : result (seq (option C))) : result (seq C * seq nat) :=
  let! l0 := tr in
  let! l := all_finite l0 in
  if (0 < n <= size l)%N then let (labels, cent) := y_kmeans y n l in relabel n labels cent
  else Err ValueError.

(** the eigenvalues, window by window, padded with zeros: omega_array.reshape(-1). costs.py:719-721 *)
Definition omega_at n (f : fitted n) (k c : nat) : C :=
  nth 0 [seq pad (wr_eigs r) c | r <- f_res f] k.
(** costs.py:719-721 *)
Definition flat_omega n (f : fitted n) : seq C :=
  flatten [seq [seq omega_at f k c | c <- iota 0 (f_pre f)] | k <- iota 0 (size (f_res f))].

(** [has_fit_predict]: the clustering class has a method of that name; if it does not, the test of costs.py:707
    itself raises.  cluster_omega (costs.py:632-669). *)
Definition cluster_omega n (c : costs n) (has_fit_predict : bool) (k : nat) (tr : option trans) : result (costs n) :=
  if ~~ has_fit_predict then Err AttributeError
  else match c_fit c with
  | None => Err AttributeError
  | Some f =>
      let! (cent, cls) := cluster_values k (transform_omega tr (flat_omega f)) in
      Ok (Costs (c_cfg c) (c_win c) (c_fit c)
            (Some (Bands k (fun a b => nth 0%N cls (a * f_pre f + b)%N) cent)))
  end.

(** cluster_hyperparameter_sweep (costs.py:785-855): the first number of bands with the largest score *)
Definition argmax_first (l : seq C) : option nat :=
  let i := find (fun a => all (fun b => b <= a) l) l in if (i < size l)%N then Some i else None.
(** costs.py:838-853 *)
Fixpoint sweep_scores (om : seq C) (tr : option trans) (ns : seq nat) : result (seq C) :=
  match ns with
  | [::] => Ok [::]
  | k :: ns' =>
      let! (_, cls) := cluster_values k (transform_omega tr om) in
      let! l0 := transform_omega tr om in
      let! l := all_finite l0 in
      let! rest := sweep_scores om tr ns' in
      Ok (y_score y l cls :: rest)
  end.
(** costs.py:820-824 *)
Definition default_range (rank : nat) : seq nat := iota (maxn (rank %/ 4) 2) (rank %/ 2 + 1 - maxn (rank %/ 4) 2).
(** costs.py:785-855 *)
Definition sweep (om : seq C) (rank : nat) (range : option (seq nat)) (tr : option trans) : result nat :=
  let ns := if range is Some l then l else default_range rank in
  let! _ := transform_omega tr om in
  let! sc := sweep_scores om tr ns in
  if argmax_first sc is Some i then Ok (nth 0%N ns i) else Err ValueError.

(** ** Reconstruction *)
(** the earliest instant of a window. costs.py:987 *)
Definition tmin w (t : 'rV[C]_w) : C := odflt 0 (smallest [seq t 0 j | j <- enum 'I_w]).
(** w[:, cls] @ diag(b[cls]) @ exp(omega[cls] * t), row i, instant a (costs.py:995-1001) *)
Definition band_sum n w (r : wres n w) (t0 : C) (pre : nat) (sel : nat -> bool) (i : 'I_n) (a : 'I_w) : C :=
  \sum_(c < pre | sel c) pad (row i (wr_modes r)) c * pad (wr_amps r) c * x_exp x (pad (wr_eigs r) c * (wr_time r 0 a - t0)).
(** np.argmin of the centroids. costs.py:1004 *)
Definition argmin_list (l : seq C) : nat := find (fun a => all (fun b => a <= b) l) l.
(** one band of one window (costs.py:993-1006) *)
Definition window_band (inc : bool) (b : bands) n w (k : nat) (r : wres n w) (pre j : nat) (i : 'I_n) (a : 'I_w) : C :=
  'Re (band_sum r (tmin (wr_time r)) pre (fun c => ba_cls b k c == j) i a)
  + (if inc && (j == argmin_list (ba_cent b)) then 'Re (wr_mean r i 0) else 0).
(** np.unique of the classes. costs.py:993 *)
Definition labels_of (b : bands) (slides pre : nat) : seq nat :=
  undup (sort leq (flatten [seq [seq ba_cls b k c | c <- iota 0 pre] | k <- iota 0 slides])).
(** [a[l] += v]: the entries of [v] are added at the positions [l], which are distinct. costs.py:1008-1012 *)
Definition spread w (l : seq nat) (v : 'I_w -> C) (s : nat) : C := \sum_(a < w | nth 0%N l a == s) v a.

(** the accumulated bands and weights (costs.py:962-1014) *)
Definition numerator n w (ls : seq (seq nat)) (rs : seq (wres n w)) (labels : seq nat)
    (val : nat -> wres n w -> nat -> 'I_n -> 'I_w -> C) (j : nat) (i : 'I_n) (s : nat) : C :=
  foldl (fun acc p => if j \in labels then acc + spread p.2.1 (fun a => val p.1 p.2.2 j i a * build_kern w a) s else acc) 0
    (zip (iota 0 (size ls)) (zip ls rs)).
(** costs.py:968, 1012 *)
Definition denominator w (ls : seq (seq nat)) (s : nat) : C :=
  foldl (fun acc l => acc + @spread w l (fun a => build_kern w a) s) 0 ls.
(** a quotient by 0 is not a number. costs.py:1014 *)
Definition quot (a b : C) : option C := if b == 0 then None else Some (a / b).

(** scale_reconstruction (costs.py:944-1016): entry (band, variable, time step); [None]: NaN.  A window_length that is
    no longer the one of the arrays raises ValueError (shapes). *)
Definition scale_reconstruction n (c : costs n) (inc : bool) : result (nat -> 'I_n -> nat -> option C) :=
  match c_fit c, c_bands c with
  | Some f, Some b =>
      let! ls := all_windows (c_win c) in
      if all (fun l => size l == f_w f) ls && (size ls == size (f_res f)) then
        let lab := labels_of b (size (f_res f)) (f_pre f) in
        if all (fun j => j < ba_n b)%N lab then
          Ok (fun j i s => quot (numerator ls (f_res f) lab (fun k r => window_band inc b k r (f_pre f)) j i s)
                                (denominator (f_w f) ls s))
        else Err IndexError
      else Err ValueError
  | _, _ => Err TypeError
  end.

(** a sum of numbers that may be NaN. costs.py:929-942, 1018-1045 *)
Definition oadd (a b : option C) : option C := if a is Some u then if b is Some v then Some (u + v) else None else None.
(** costs.py:929-942, 1018-1045 *)
Definition osum (l : seq (option C)) : option C := foldl oadd (Some 0) l.
(** global_reconstruction (costs.py:929-942) *)
Definition global_reconstruction n (c : costs n) (inc : bool) : result ('I_n -> nat -> option C) :=
  let! g := scale_reconstruction c inc in
  match c_bands c with
  | Some b => Ok (fun i s => osum [seq g j i s | j <- iota 0 (ba_n b)])
  | None => Err TypeError
  end.
(** scale_separation (costs.py:1018-1045): band 0, and the sum of the others *)
Definition scale_separation n (c : costs n) (inc : bool) : result (('I_n -> nat -> option C) * ('I_n -> nat -> option C)) :=
  let! g := scale_reconstruction c inc in
  match c_bands c with
  | Some b => if ba_n b == 0%N then Err IndexError
              else Ok (g 0%N, fun i s => osum [seq g j i s | j <- iota 1 (ba_n b).-1])
  | None => Err TypeError
  end.
End Costs.
