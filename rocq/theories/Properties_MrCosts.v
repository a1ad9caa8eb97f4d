(** * C58: mrCOSTS, the levels and the reconstruction *)
From Coq Require Import QArith.
From mathcomp Require Import all_ssreflect all_fingroup all_algebra.
From Verif Require Import Py LinAlg Model_Operator Model_BOP Model_CostsWin Model_Costs Model_MrCosts Spec_Costs Spec_CostsWin Spec_MrCosts.
From Verif Require Import Proofs_CostsWin Proofs_Costs Proofs_CostsBand Proofs_CostsFit Proofs_CostsLoop Proofs_MrInterp Proofs_MrCosts Proofs_MrFit.
From Verif Require Import Properties_Costs Properties_CostsBand.
From Verif Require Model_Utils.
Set Implicit Arguments. Unset Strict Implicit. Unset Printing Implicit Defensive.
Import Order.TTheory GRing.Theory Num.Theory.
Local Open Scope ring_scope.
Local Notation "# n" := (BinInt.Z.of_nat n) (at level 5, format "# n").

Section C58.
Variable C : numClosedFieldType.
Variable np : numpy C.
Variable x : ext C.
Variable y : cext C.

(** ** What the levels are *)
(** the entry of global_svd_array for level [k]; True unless given *)
Definition uses_global n (o : mrcosts C n) (k : nat) : bool := if mr_global o is Some l then nth true l k else true.
(** the number of bands the user asked for at level [k]; [None]: to be found by the sweep *)
Definition asked n (o : mrcosts C n) (k : nat) : option nat :=
  if mr_sweep o then None else if mr_ncomp o is Some l then nth None l k else None.

(** a COSTS object of which only svd_rank and global_svd were given, never fitted *)
Definition fresh_level n (rk : Model_Utils.rank_arg) (g : bool) : costs C n :=
  Costs (CCfg (Some rk) g false false None false true None) no_wins None None.
(** [c] is what COSTS gives for level [k] of the data [D]: a new COSTS object with the rank of the level, fitted with its
    window length and step, then clustered into the number of bands asked for *)
Definition level_run fuel n (o : mrcosts C n) sharp T m (t : 'rV[C]_m) (k : nat) (D : 'M[C]_(n, T)) kw (c : costs C n) kw' : Prop :=
  exists c1 N,
  [/\ fit np x y fuel (fresh_level n (nth (Model_Utils.RInt BinNums.Z0) (mr_ranks o) k) (uses_global o k)) kw sharp D t
        (nth BinNums.Z0 (mr_windows o) k) (nth BinNums.Z0 (mr_steps o) k) = Some (c1, kw', Ok tt),
      (if asked o k is Some v then N = v else level_sweep y c1 (mr_transform o) = Ok N)
    & cluster_omega y c1 true N (mr_transform o) = Ok c].

(** the levels [lev]: the first one decomposes [X]; each later one decomposes the low-frequency part of the one before,
    with the BOPDMD options as that one left them *)
Record cascade fuel n (o : mrcosts C n) sharp T (X : 'M[C]_(n, T)) m (t : 'rV[C]_m) (lev : seq (costs C n)) (c0 : costs C n)
    (D : nat -> 'M[C]_(n, T)) (kws : nat -> kwargs C n) : Prop := Cascade {
  ca_first : D 0%N = X;
  ca_kw : kws 0%N = mr_kw o;
  ca_run : forall k, (k < size lev)%N -> level_run fuel o sharp t k (D k) (kws k) (nth c0 lev k) (kws k.+1);
  ca_next : forall k, (k.+1 < size lev)%N -> exists lo hi,
    scale_separation x (nth c0 lev k) (mr_means o) = Ok (lo, hi) /\ forall i (s : 'I_T), lo i s = Some (D k.+1 i s) }.

Theorem C58_levels fuel n (o o' : mrcosts C n) sharp T (X : 'M[C]_(n, T)) m (t : 'rV[C]_m) c0 :
  mr_fit np x y fuel o sharp X t = Some (o', Ok tt) ->
  exists lev D kws, [/\ mr_levels o' = Some lev, cascade fuel o sharp X t lev c0 D kws,
    size lev = minn (minn (size (mr_windows o)) (size (mr_steps o))) (size (mr_ranks o)),
    mr_ndec o' = Some (size (mr_windows o)) & mr_kw o' = kws (size lev)].
Proof.
rewrite /mr_fit; case: ifP => // Sw; case E: (mr_loop _ _ _ _ _ _ _ _ _ _ _ _ _ _ _ _) => [[[[lev kw] nc'] r]|] // [<- Er].
rewrite {}Er {r} in E; set s0 := ((BinNums.Z0, BinNums.Z0), Model_Utils.RInt BinNums.Z0).
have [new [Ds [kws [[El Sz K0 Ke D0] H]]]] := loopP s0 c0 E; rewrite cat0s in El; subst lev.
exists new, (fun k => if k is k'.+1 then Ds k'.+1 else X), kws; split=> //; last by rewrite Sz Ke.
  split=> //.
    move=> k K; rewrite Sz in K; have [[c1 [N [nc1 [nc2 [F S L Cl]]]]] _] := H k K.
    have Edk : (if k is k'.+1 then Ds k'.+1 else X) = Ds k by case: k K {F S L Cl} => // K; case: (D0 K).
    have [A1 A2 A3] : [/\ (nth s0 (zip (zip (mr_windows o) (mr_steps o)) (mr_ranks o)) k).1.1 = nth BinNums.Z0 (mr_windows o) k,
        (nth s0 (zip (zip (mr_windows o) (mr_steps o)) (mr_ranks o)) k).1.2 = nth BinNums.Z0 (mr_steps o) k &
        (nth s0 (zip (zip (mr_windows o) (mr_steps o)) (mr_ranks o)) k).2 = nth (Model_Utils.RInt BinNums.Z0) (mr_ranks o) k].
      have K' : (k < size (zip (mr_windows o) (mr_steps o)))%N by apply: leq_trans K _; rewrite [size (zip _ (mr_ranks o))]size_zip geq_minl.
      by rewrite nth_zip_cond K /= nth_zip_cond K'.
    exists c1, N; split=> //; first rewrite -F Edk A1 A2 A3 add0n.
      rewrite /uses_global; case: (mr_global o) => // ; rewrite nth_nseq; by case: ifP.
    move: L S; rewrite /level_count add0n /asked; move: Sw; case: (mr_sweep o) => /= Sw.
      by case: nc1 => // l1; case: ifP => // _; case: (level_sweep _ _ _) => //= v [<- _].
    case: nc1 => // l1; case: ifP => // _; case: (mr_ncomp o) => //= l L /(_ k (leqnn k)) <-.
    by case: (nth None l1 k) L => [v [<-]|] //; case: (level_sweep _ _ _) => //= v [<- _].
  move=> k K; rewrite Sz in K; have [_ Nx] := H k (ltnW K); apply: Nx => //; rewrite add0n.
  have: (k.+1 < size (mr_windows o))%N.
    by apply: leq_trans K _; rewrite size_zip; apply: leq_trans (geq_minl _ _) _; rewrite size_zip geq_minl.
  by case: (size _).
by rewrite Sz !size_zip.
Qed.

(** ** The parts add up *)
Section Add.
Variables (fuel n : nat) (o : mrcosts C n) (sharp : C) (T : nat) (X : 'M[C]_(n, T)) (m : nat) (t : 'rV[C]_m)
  (lev : seq (costs C n)) (c0 : costs C n) (D : nat -> 'M[C]_(n, T)) (kws : nat -> kwargs C n).
Hypothesis Ca : cascade fuel o sharp X t lev c0 D kws.

(** the data are the high-frequency parts of all levels, plus the low-frequency part of the last one, plus what the
    reconstruction of every level misses of its own data *)
Theorem C58_telescope i (s : 'I_T) (g h : nat -> C) (b : C) : (0 < size lev)%N ->
  (forall k, (k < size lev)%N -> exists G lo hi,
    [/\ global_reconstruction x (nth c0 lev k) (mr_means o) = Ok G, scale_separation x (nth c0 lev k) (mr_means o) = Ok (lo, hi),
        G i s = Some (g k), hi i s = Some (h k) & (k.+1 = size lev -> lo i s = Some b)]) ->
  X i s = \sum_(k < size lev) h k + b + \sum_(k < size lev) (D k i s - g k).
Proof.
move=> L H; have step k : (k.+1 < size lev)%N -> g k = D k.+1 i s + h k.
  move=> K; have [G [lo [hi [HG HS Eg Eh _]]]] := H k (ltnW K); have [lo' [hi' [S' E']]] := ca_next Ca K.
  move: S'; rewrite HS => -[El _]; rewrite -El in E'; have := C44_separation HG HS i s; rewrite Eg Eh E' => -[->] //.
have lst : g (size lev).-1 = b + h (size lev).-1.
  have [|G [lo [hi [HG HS Eg Eh Eb]]]] := H (size lev).-1; first by rewrite prednK.
  by have := C44_separation HG HS i s; rewrite Eg Eh Eb ?prednK // => -[->].
suff E j : (j < size lev)%N -> X i s = \sum_(k < j) h k + D j i s + \sum_(k < j) (D k i s - g k).
  rewrite (E (size lev).-1) ?prednK //; case: (size lev) L lst => // N _ lst; rewrite !big_ord_recr /= in lst *.
  by rewrite lst; exact: telescope_step.
elim: j => [|j IH] J; first by rewrite !big_ord0 add0r addr0 (ca_first Ca).
by rewrite (IH (ltnW J)) !big_ord_recr /= (step j J); exact: telescope_step.
Qed.
End Add.

(** ** The reconstruction *)
Hypotheses (KM : kmeans_ok (y_kmeans y)) (AS : argsort_ok (y_argsort y)) (LG : is_log (y_log10 y)) (EP : exp_positive (x_exp x)).

(** the centres of the windows of a level *)
Definition centres n (c : costs C n) : seq C := if c_fit c is Some f then [seq centre r | r <- f_res f] else [::].
(** every window of the level has an eigenvalue outside of the slowest band *)
Definition fast_everywhere n (c : costs C n) : Prop := forall f b, c_fit c = Some f -> c_bands c = Some b ->
  forall k, (k < size (f_res f))%N -> exists2 a, (a < f_pre f)%N & (0 < ba_cls b k a)%N.
(** the time step [s] is in a window of length [w] *)
Definition covered (T w d s : nat) : Prop := has (fun l => s \in l) (listed T w d).

Record level_facts n (c : costs C n) (T w d : nat) f b : Prop := LevelFacts {
  lf_state : fit_state c (listed T w d) f;
  lf_bands : c_bands c = Some b;
  lf_argmin : argmin_list (ba_cent b) = 0%N;
  lf_range : forall k a, (k < size (f_res f))%N -> (a < f_pre f)%N -> (ba_cls b k a < ba_n b)%N;
  lf_pos : (0 < ba_n b)%N;
  lf_time : forall k r0, (k < size (f_res f))%N -> tmin (wr_time (nth r0 (f_res f) k)) = pad (wr_time (nth r0 (f_res f) k)) 0;
  lf_real : all (fun z => z \is Num.real) [seq centre r | r <- f_res f] }.

Lemma levelP fuel n (o : mrcosts C n) sharp T (t : 'rV[C]_T) k (D : 'M[C]_(n, T)) kw (c : costs C n) kw' (w d : nat) :
  rising t -> (0 < w)%N -> (0 < d)%N -> rounds (y_fl y) #T #w ->
  nth BinNums.Z0 (mr_windows o) k = #w -> nth BinNums.Z0 (mr_steps o) k = #d ->
  level_run fuel o sharp t k D kw c kw' -> exists f b, level_facts c T w d f b.
Proof.
move=> Rt w0 d0 R Ew Ed [c1 [N [F _ Cl]]]; rewrite {}Ew {}Ed in F.
have [wT _ [f FS]] := fit_stateP w0 d0 R F; have [pre [rs [Ef Sr Ti]]] := fit_times w0 d0 R F.
have [b [[Eb [EN _] _ Am Ra] [Cf Cw _]]] := C45_bands KM AS LG (fs_fit FS) Cl.
have Npos : (0 < N)%N.
  have [tr' [cent [cls [_ Ec _]]]] := clusterP (fs_fit FS) Cl.
  by have [/andP[]] := cluster_namedP KM AS LG Ec.
have Ff : f = Fitted pre rs by move: Ef; rewrite (fs_fit FS) => -[].
subst f; have At k' r0 : (k' < size rs)%N -> (forall j, wr_time (nth r0 rs k') 0 j \is Num.real) /\
    (forall i j : 'I_w, (i <= j)%N -> wr_time (nth r0 rs k') 0 i <= wr_time (nth r0 rs k') 0 j).
  move=> K; rewrite (Ti _ r0 K); have [|st L ->] := @listed_entry T w d k' wT _; first by rewrite -Sr.
  exact: cut_rising.
exists (Fitted pre rs), b; split=> //; last 1 first.
- apply/(all_nthP 0) => k'; rewrite size_map => K.
  have [r0 _] : exists r0 : wres C n w, True by case: (rs) K => // a l _; exists a.
  by rewrite (nth_map r0) //; apply: centre_real; have [] := At _ r0 K.
- by case: FS => *; split=> //; rewrite ?Cw ?Cf.
- by rewrite EN => k' a K A; apply: Ra; split.
- by rewrite EN.
- by move=> k' r0 K; apply: tmin_first; have [] := At _ r0 K.
Qed.

(** both parts of a level exist at a covered time step *)
Lemma parts n (c : costs C n) T w d f b inc : level_facts c T w d f b -> exists G lo hi,
  [/\ global_reconstruction x c inc = Ok G, scale_separation x c inc = Ok (lo, hi) &
    forall i s, covered T w d s -> exists u v, lo i s = Some u /\ hi i s = Some v].
Proof.
move=> L; have FS := lf_state L; have EB := lf_bands L.
have A : all (fun j => (j < ba_n b)%N) (labels_of b (size (f_res f)) (f_pre f)).
  apply/allP => j; rewrite mem_undup mem_sort => /flattenP[l /mapP[k]]; rewrite mem_iota add0n => /andP[_ K] -> /mapP[a].
  by rewrite mem_iota add0n => /andP[_ A] ->; apply: (lf_range L).
rewrite /global_reconstruction /scale_separation /scale_reconstruction (fs_fit FS) EB (fs_windows FS) /= (fs_width FS) (fs_size FS) eqxx /= A /=.
have := lf_pos L; rewrite lt0n => /negbTE Z; rewrite Z; do 3 eexists; split; [reflexivity | reflexivity |].
move=> i s Cov; have D0 := denominator_gt0 EP (fs_width FS) Cov; have nz := lt0r_neq0 D0.
rewrite osum_quot //= /quot (negbTE nz); by do 2 eexists.
Qed.

Section Rec.
Variables (fuel n : nat) (o o1 o2 : mrcosts C n) (sharp : C) (T : nat) (X : 'M[C]_(n, T)) (t : 'rV[C]_T).
Variables (ws ds : seq nat) (k : option nat) (tr : option trans) (r : seq C * seq nat) (lev : seq (costs C n)) (c0 : costs C n).
Hypotheses (Ew : mr_windows o = [seq #w | w <- ws]) (Ed : mr_steps o = [seq #d | d <- ds]).
Hypotheses (W0 : all (fun w => 0 < w)%N ws) (S0 : all (fun d => 0 < d)%N ds) (Rn : forall w, w \in ws -> rounds (y_fl y) #T #w).
Hypotheses (Rt : rising t).
Hypotheses (HF : mr_fit np x y fuel o sharp X t = Some (o1, Ok tt)) (EL : mr_levels o1 = Some lev).
Hypotheses (Fresh : mr_omega o = None) (HC : global_cluster_omega y o1 k tr = (o2, Ok r)).
(** every window of every level has a fast eigenvalue; the windows of the later levels are at least twice as far apart as
    those of the first *)
Hypotheses (Fa : forall d, (d < size lev)%N -> fast_everywhere (nth c0 lev d)).
Hypotheses (Spc : forall d, (0 < d < size lev)%N -> exists h, spaced h (centres (nth c0 lev 0)) (centres (nth c0 lev d))).

Lemma fit_fields : [/\ mr_windows o1 = mr_windows o, mr_means o1 = mr_means o, mr_omega o1 = mr_omega o, mr_ranks o1 = mr_ranks o & mr_ndec o1 = Some (size ws)].
Proof.
move: HF; rewrite /mr_fit; case: ifP => // _; case: (mr_loop _ _ _ _ _ _ _ _ _ _ _ _ _ _ _ _) => [[[[l kw] nc] r']|] // [<- _].
by rewrite /= Ew size_map.
Qed.
Lemma clusterE : exists k' da tr' l, [/\ all_ok (@to_ds C n) lev = Ok l, interp (size ws) l = Ok da,
  cluster_values y k' (transform_named y tr' (flat_values da)) = Ok r & o2 = mr_upd o1 (Some da) (Some k') (Some r)].
Proof.
have [E1 _ E2 _ _] := fit_fields; move: HC; rewrite /global_cluster_omega /mr_table E2 Fresh EL E1 Ew size_map.
case: (match k with Some _ => k | None => _ end) => [k'|] //.
case El: (all_ok _ _) => [l|] //=; case Ei: (interp _ _) => [da|] //; rewrite /mr_cluster.
case Ev: (cluster_values _ _ _) => [r'|] // [<- <-].
by rewrite /mr_transform_omega in Ev; exists k', da; eexists; exists l; split; [| |exact: Ev|].
Qed.

Lemma factsAt : exists D kws, cascade fuel o sharp X t lev c0 D kws /\ forall d, (d < size lev)%N ->
  exists f b, level_facts (nth c0 lev d) T (nth 0%N ws d) (nth 0%N ds d) f b.
Proof.
have [lev' [D [kws [EL' Ca Sz _ _]]]] := C58_levels c0 HF.
move: EL'; rewrite EL => -[El]; subst lev'; exists D, kws; split=> // d L.
have L' : (d < minn (size ws) (size ds))%N by move: L; rewrite Sz Ew Ed !size_map; move=> L; exact: leq_trans L (geq_minl _ _).
move: L'; rewrite leq_min => /andP[L1 L2].
apply: (levelP Rt _ _ _ _ _ (ca_run Ca L)); rewrite ?Ew ?Ed ?(nth_map 0%N) //.
- exact: (allP W0 _ (mem_nth _ L1)).
- exact: (allP S0 _ (mem_nth _ L2)).
- exact: Rn (mem_nth _ L1).
Qed.


Lemma interpE W l (da : table C) : interp W l = Ok da -> [/\ W = size l, da_cols da = union_cols l, da_levels da = size l & (0 < size l)%N].
Proof.
rewrite /interp; case: l => // d0 l; case: ifP => // _; case: (sources _ _) => //= src; case: eqP => // -> [<-].
by split.
Qed.
Lemma to_dsE (c : costs C n) f b l0 : c_fit c = Some f -> c_bands c = Some b -> to_ds c = Ok l0 ->
  l0 = LevelDs [seq centre r | r <- f_res f] (f_pre f) (omega_at f) (ba_cls b).
Proof. by rewrite /to_ds => -> ->; case: (cc_rank _) => // -[] // z; case: ifP => // _ []. Qed.

Lemma inner G : global_scale_reconstruction x o2 = Ok G ->
  (exists s, forall d, (d < size lev)%N -> covered T (nth 0%N ws d) (nth 0%N ds d) s) ->
  exists values cl ng, [/\ size lev = size ws, mr_nglobal o2 = Some ng & forall e, (e < size values)%N -> (nth 0%N r.2 e < ng)%N] /\
  forall d f b, (d < size lev)%N -> c_fit (nth c0 lev d) = Some f -> c_bands (nth c0 lev d) = Some b ->
   (forall j e, (j < size (f_res f))%N -> (e < f_pre f)%N ->
         class_of values r.2 (omega_at f j e) (ba_cls b j e) (cl d j e)) /\
   exists cols, level_bands x (mr_ranks o) ng cols (nth c0 lev d) (cl d) = Ok (G d).
Proof.
have [k' [da [tr' [l [El Ei Ev ->]]]]] := clusterE; have [_ _ _ E4 E5] := fit_fields.
rewrite /global_scale_reconstruction /= E5 EL E4 El /=; case: r Ev => cent cls Ev; cbn [bind].
case Ed' : (deterp da cls l) => [cl|] //; cbn [bind].
case Eb: (all_bands _ _ _ _ _ _) => [gs|] //; cbn [bind]; case: ifP => // _ [<-] [s Cov].
have [D [kws [Ca LF]]] := factsAt; have [Sl Hl] := all_okP c0 (no_ds C) El; have [Sg Hg] := all_bandsP c0 Eb.
have [EW Ecol Elev L0] := interpE Ei; rewrite Sl in EW L0.
have ng0 : (0 < k')%N by have [/andP[]] := cluster_namedP KM AS LG Ev.
have Ds d f b : (d < size lev)%N -> c_fit (nth c0 lev d) = Some f -> c_bands (nth c0 lev d) = Some b ->
    nth (no_ds C) l d = LevelDs [seq centre r | r <- f_res f] (f_pre f) (omega_at f) (ba_cls b).
  by move=> L Ef Eb'; apply: to_dsE (Hl d L).
have Full : union_cols l = iota 0 (foldr maxn 0%N [seq ds_rank d | d <- l]).
  apply: union_full; have [|d Ld ->] := @max_attained [seq ds_rank d | d <- l]; first by rewrite size_map Sl.
  rewrite size_map Sl in Ld; have [f [b F]] := LF d Ld; have Ef := fs_fit (lf_state F).
  rewrite (nth_map (no_ds C)) ?Sl // (Ds _ _ _ Ld Ef (lf_bands F)) /=.
  have := Hg d (fun _ _ _ => None) Ld; rewrite /level_bands Ef (fs_windows (lf_state F)) ng0; cbn [bind].
  have -> : (0 < size (f_res f))%N.
    by rewrite -(fs_size (lf_state F)); have := Cov d Ld; rewrite /covered; case: (listed _ _ _).
  by rewrite /= Ecol; case: eqP => // H _; apply: handed_le H.
exists (flat_values da), (fun d => nth (fun _ _ => None) cl d), k'; split.
  by split=> // e; exact: (cluster_range KM AS LG Ev).
move=> d f b Ld Ef EB; split; last by exists (size (da_cols da)); rewrite -Hg.
move=> j e J E; have Dd := Ds d f b Ld Ef EB.
have := class_at Ei Ed' _ _ _ _ (d := d) (k := j) (c := e); rewrite Dd /ds_size /=; apply; rewrite ?Sl ?size_map //.
- move=> d' L'; have [f' [b' F']] := LF d' L'; have Ef' := fs_fit (lf_state F').
  rewrite (Ds _ _ _ L' Ef' (lf_bands F')) /has_fast /ds_size /= => k2; rewrite size_map => K.
  by have [a A P] := Fa L' Ef' (lf_bands F') K; apply/hasP; exists a; rewrite ?mem_iota.
- move=> d' /andP[P L']; have [f' [b' F']] := LF d' L'; have Ef' := fs_fit (lf_state F').
  have [f0 [b0 F0]] := LF 0%N L0; have Ef0 := fs_fit (lf_state F0).
  have [|h Sp] := @Spc d'; first by rewrite P.
  by exists h; move: Sp; rewrite /centres Ef0 Ef' (Ds _ _ _ L' Ef' (lf_bands F')) (Ds _ _ _ L0 Ef0 (lf_bands F0)).
- apply/(all_nthP (no_ds C)) => d'; rewrite Sl => L'; have [f' [b' F']] := LF d' L'.
  by rewrite (Ds _ _ _ L' (fs_fit (lf_state F')) (lf_bands F')); exact: lf_real F'.
- by rewrite Full size_iota.
- rewrite Full size_iota; apply: leq_trans E _.
  have -> : f_pre f = nth 0%N [seq ds_rank d | d <- l] d by rewrite (nth_map (no_ds C)) ?Sl // Dd.
  exact: max_ge.
Qed.

(** the part of window [w] that belongs to global band [j], at its [a]-th time step: the modes of the eigenvalues with that
    label, from the first instant of the window on *)
Definition part_of (cls : nat -> option nat) (j : nat) w (v : wres C n w) (pre : nat) (i : 'I_n) (a : 'I_w) : C :=
  'Re (\sum_(e < pre | cls e == Some j) pad (row i (wr_modes v)) e * pad (wr_amps v) e * x_exp x (pad (wr_eigs v) e * (wr_time v 0 a - pad (wr_time v) 0))).

(** Every eigenvalue of every window of every level gets the label that its own value got in the global clustering, and
    none if it is in the slowest band of its level, which went to the next level.  A global band of a level is, at a covered
    time step, the weighted average over the windows of the parts with that label. *)
Theorem C58_classes G : global_scale_reconstruction x o2 = Ok G ->
  (exists s, forall d, (d < size lev)%N -> covered T (nth 0%N ws d) (nth 0%N ds d) s) ->
  exists values cl ng, [/\ size lev = size ws, mr_nglobal o2 = Some ng & forall e, (e < size values)%N -> (nth 0%N r.2 e < ng)%N] /\
  forall d f b, (d < size lev)%N -> c_fit (nth c0 lev d) = Some f -> c_bands (nth c0 lev d) = Some b ->
   let ls := listed T (nth 0%N ws d) (nth 0%N ds d) in
   (forall k' e, (k' < size (f_res f))%N -> (e < f_pre f)%N ->
         class_of values r.2 (omega_at f k' e) (ba_cls b k' e) (cl d k' e)) /\
   forall s, covered T (nth 0%N ws d) (nth 0%N ds d) s -> exists wt, weights ls s wt /\
     forall j i (v : nat -> C) (r0 : wres C n (f_w f)), (j < ng)%N ->
       (forall k' (a : 'I_(f_w f)), (k' < size ls)%N -> nth 0%N (nth [::] ls k') a = s ->
          v k' = part_of (cl d k') j (nth r0 (f_res f) k') (f_pre f) i a) ->
       G d j i s = Some (\sum_(k' < size ls) wt k' * v k').
Proof.
move=> HG Cov; have [values [cl [ng [A H]]]] := inner HG Cov; exists values, cl, ng; split=> // d f b Ld Ef EB ls.
have [Cl [cols HB]] := H d f b Ld Ef EB; split=> // s Cs.
have [D [kws [_ LF]]] := factsAt; have [f' [b' F]] := LF d Ld; have FS := lf_state F.
have Eff : f' = f by move: Ef; rewrite (fs_fit FS) => -[].
subst f'; exists (wgt x (f_w f) ls s); split; first by apply: wgt_weights => //; exact: fs_width FS.
move=> j i v r0 J V.
have E : osum [seq quot (numerator x ls (f_res f) (iota 0 ng) (fun k r => global_band x (cl d) k r (f_pre f)) j i s) (denominator x (f_w f) ls s) | j <- [:: j]]
    = Some (\sum_(k' < size ls) wgt x (f_w f) ls s k' * v k').
  apply: (bands_average (r0 := r0)) => //; [exact: fs_width FS | exact: fs_size FS |].
  by move=> k' a K Ea; rewrite (V k' a K Ea) big_cons big_nil mem_iota /= J addr0.
rewrite -E; move: HB; rewrite /level_bands Ef (fs_windows FS); cbn [bind]; case: ifP => // _.
by case: ifP => // _ [<-]; rewrite /osum /= /quot; case: eqP => //= _; rewrite add0r.
Qed.

(** mrCOSTS.global_reconstruction gives the data back, up to what the COSTS reconstruction of every level misses of the data
    of that level *)
Theorem C58_reconstruction R : mr_means o = true -> mr_reconstruction x o2 = Ok R ->
  exists D kws, cascade fuel o sharp X t lev c0 D kws /\ forall i (s : 'I_T),
  (forall d, (d < size lev)%N -> covered T (nth 0%N ws d) (nth 0%N ds d) s) ->
  exists g, (forall d, (d < size lev)%N -> exists G, global_reconstruction x (nth c0 lev d) true = Ok G /\ G i s = Some (g d)) /\
    R i s = Some (X i s - \sum_(d < size lev) (D d i s - g d)).
Proof.
move=> Mt; rewrite /mr_reconstruction; case EG: (global_scale_reconstruction x o2) => [G|] //; cbn [bind].
case EBg: (get_background x o2) => [bg|] //; cbn [bind].
have [D [kws [Ca LF]]] := factsAt.
have [k' [da [tr' [l [El Ei Ev Eo]]]]] := clusterE; have [_ _ _ E4 E5] := fit_fields.
have N2 : mr_ndec o2 = Some (size ws) by rewrite Eo.
rewrite N2; case Eng: (mr_nglobal o2) => [ng|] // [<-]; exists D, kws; split=> // i s Cov.
have [values [cl [ng' [[Sw En Rg] H]]]] := inner EG (ex_intro _ (s : nat) Cov).
move: En; rewrite Eng => -[En]; subst ng'.
have L0 : (0 < size lev)%N by have [W _ _ L] := interpE Ei; rewrite Sw W.
have At d : (d < size lev)%N -> exists Gd lo hi u v, [/\ global_reconstruction x (nth c0 lev d) true = Ok Gd,
    scale_separation x (nth c0 lev d) true = Ok (lo, hi), lo i s = Some u, hi i s = Some v & Gd i s = Some (u + v)] /\
    osum [seq G d j i s | j <- iota 0 ng] = Some v.
  move=> Ld; have [f [b F]] := LF d Ld; have [Gd [lo [hi [HG HS /(_ i s (Cov d Ld)) [u [v [Eu Evv]]]]]]] := parts true F.
  exists Gd, lo, hi, u, v; split; first by split=> //; rewrite (C44_separation HG HS i s) Eu Evv.
  have [Cl [cols HB]] := H d f b Ld (fs_fit (lf_state F)) (lf_bands F).
  have Sp : splits f b (cl d) ng.
    move=> j e J E; have := Cl j e J E; rewrite /class_of; case: ifP => // _ [e' [E1 _ ->]].
    by exists (nth 0%N r.2 e') => //; exact: Rg.
  by rewrite (level_high (lf_state F) (lf_bands F) (lf_argmin F) Sp (lf_time F) i EP (Cov d Ld) HB HS).
pose pick d := if (global_reconstruction x (nth c0 lev d) true, scale_separation x (nth c0 lev d) true) is (Ok Gd, Ok (lo, hi))
  then (odflt 0 (Gd i s), odflt 0 (hi i s), odflt 0 (lo i s)) else (0, 0, 0).
exists (fun d => (pick d).1.1); split.
  by move=> d Ld; have [Gd [lo [hi [u [v [[HG HS _ _ Eg] _]]]]]] := At d Ld; exists Gd; split=> //; rewrite /pick HG HS Eg.
have Ebg : bg i s = Some (pick (size lev).-1).2.
  have Ll : ((size lev).-1 < size lev)%N by rewrite prednK.
  have [Gd [lo [hi [u [v [[HG HS Eu _ Eg] _]]]]]] := At _ Ll; rewrite /pick HG HS Eu /=.
  move: EBg; have L2 : mr_levels o2 = Some lev by rewrite Eo.
  rewrite /get_background L2; move: HS Eu; rewrite nth_last.
  case: (lev) => // a lev'; have -> : last c0 (a :: lev') = last a lev' by [].
  have -> : last a (a :: lev') = last a lev' by [].
  rewrite /scale_separation; case: (scale_reconstruction x (last a lev') true) => // g; cbn [bind].
  case: (c_bands (last a lev')) => // b; case: ifP => // _ [<- _] E [<-] //.
have Eh d : (d < size lev)%N -> osum [seq G d j i s | j <- iota 0 ng] = Some (pick d).1.2.
  by move=> Ld; have [Gd [lo [hi [u [v [[HG HS _ Evv _] ->]]]]]] := At d Ld; rewrite /pick HG HS Evv.
rewrite Ebg (_ : osum _ = Some (\sum_(d < size lev) (pick d).1.2)); last first.
  rewrite -Sw; elim: (size lev) Eh => [|N IH] Eh; first by rewrite big_ord0.
  have Eh' d : (d < N)%N -> osum [seq G d j i s | j <- iota 0 ng] = Some (pick d).1.2 by move=> L; apply: Eh; exact: ltnW.
  have -> : iota 0 N.+1 = rcons (iota 0 N) N by rewrite -cats1 -[N in [:: N]]add0n -(iotaD 0 N 1) addn1.
  by rewrite map_rcons -cats1 /osum foldl_cat -![foldl _ _ [seq _ | _ <- _]]/(osum _) (IH Eh') /= (Eh N) // big_ord_recr.
rewrite (C58_telescope Ca (i := i) (s := s) (g := fun d => (pick d).1.1) (h := fun d => (pick d).1.2) (b := (pick (size lev).-1).2)) //.
  by rewrite addrK.
move=> d Ld; have [Gd [lo [hi [u [v [[HG HS Eu Evv Eg] _]]]]]] := At d Ld.
exists Gd, lo, hi; rewrite Mt; split=> //; try by rewrite /pick HG HS ?Eg ?Evv.
by move=> Es; rewrite (_ : (size lev).-1 = d) -?Es //; rewrite /pick HG HS Eu.
Qed.
End Rec.
End C58.
Print Assumptions C58_levels.
Print Assumptions C58_telescope.
Print Assumptions C58_classes.
Print Assumptions C58_reconstruction.
