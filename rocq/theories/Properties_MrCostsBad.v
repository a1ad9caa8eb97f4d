(** * C58: mrCOSTS, what goes wrong *)
From Coq Require Import QArith.
From mathcomp Require Import all_ssreflect all_fingroup all_algebra.
From Verif Require Import Py LinAlg Model_Operator Model_BOP Model_CostsWin Model_Costs Model_MrCosts Spec_Costs Spec_CostsWin Spec_MrCosts.
From Verif Require Import Proofs_CostsWin Proofs_Costs Proofs_CostsBand Proofs_CostsFit Proofs_CostsLoop Proofs_MrInterp Proofs_MrCosts Proofs_MrFit.
From Verif Require Import Properties_Costs Properties_CostsBand Properties_CostsFit Properties_MrCosts.
From Verif Require Model_Utils.
Set Implicit Arguments. Unset Strict Implicit. Unset Printing Implicit Defensive.
Import Order.TTheory GRing.Theory Num.Theory.
Local Open Scope ring_scope.
Local Notation "# n" := (BinInt.Z.of_nat n) (at level 5, format "# n").

Section C58bad.
Variable C : numClosedFieldType.
Variable np : numpy C.
Variable x : ext C.
Variable y : cext C.

(** the constructor refuses an n_components_array whose length is not that of step_array; other lengths are not compared *)
Theorem C58_constructor n win st rk gl nc sw tr means (kw : kwargs C n) :
  (exists o, mr_new win st rk gl nc sw tr means kw = Ok o) \/ mr_new win st rk gl nc sw tr means kw = Err ValueError.
Proof. by rewrite /mr_new; case: nc => [l|]; [case: ifP => _|]; [left; eexists | right | left; eexists]. Qed.
Theorem C58_constructor_check n win st rk gl nc sw tr means (kw : kwargs C n) :
  mr_new win st rk gl nc sw tr means kw = Err ValueError <-> exists l, nc = Some l /\ size l <> size st.
Proof.
rewrite /mr_new; case: nc => [l|]; last by split=> // -[l []].
by case: eqP => E; split=> //; [case=> l' [[<-]] | exists l].
Qed.

(** the number of levels *)
Definition levels_of n (o : mrcosts C n) : nat := minn (minn (size (mr_windows o)) (size (mr_steps o))) (size (mr_ranks o)).

Section Fit.
Variables (fuel n : nat) (o o' : mrcosts C n) (sharp : C) (T : nat) (X : 'M[C]_(n, T)) (m : nat) (t : 'rV[C]_m) (res : result unit).
Hypothesis HF : mr_fit np x y fuel o sharp X t = Some (o', res).

(** the default transform_method, None, makes every fit raise at its first level; the levels of an earlier fit are lost *)
Theorem C58_default_refuted : mr_transform o = None -> (0 < levels_of o)%N -> ~~ mr_sweep o ->
  (exists e, res = Err e) /\ mr_levels o' = Some [::].
Proof.
move=> Tr L NS; move: HF; rewrite /mr_fit (negbTE NS) /= Tr.
case: (zip _ _) (size_zip (zip (mr_windows o) (mr_steps o)) (mr_ranks o)) => [|[[w st] rk] lv] Sz.
  by move: L; rewrite /levels_of -size_zip -Sz.
rewrite /=; case: ifP => // _; first by move=> [<- <-]; split=> //; eexists.
case F: (fit _ _ _ _ _ _ _ _ _ _ _) => [[[c1 kw1] [[]|e]]|] //; last by move=> [<- <-]; split=> //; eexists.
case: (mr_ncomp o) => [l|] /=; last by move=> [<- <-]; split=> //; eexists.
case: ifP => _; last by move=> [<- <-]; split=> //; eexists.
have K k : exists e, cluster_omega y c1 true k None = Err e.
  by rewrite /cluster_omega /=; case: (c_fit c1) => [f|]; eexists.
case: (nth None l 0) => [k|].
  by have [e ->] := K k; move=> [<- <-]; split=> //; eexists.
case: (level_sweep y c1 None) => [k|e] /=; last by move=> [<- <-]; split=> //; eexists.
by have [e ->] := K k; move=> [<- <-]; split=> //; eexists.
Qed.

(** without n_components_array and without cluster_sweep every fit raises *)
Theorem C58_no_count_refuted : mr_ncomp o = None -> (0 < levels_of o)%N -> ~~ mr_sweep o ->
  (exists e, res = Err e) /\ mr_levels o' = Some [::].
Proof.
move=> Nc L NS; move: HF; rewrite /mr_fit (negbTE NS) /= Nc.
case: (zip _ _) (size_zip (zip (mr_windows o) (mr_steps o)) (mr_ranks o)) => [|[[w st] rk] lv] Sz.
  by move: L; rewrite /levels_of -size_zip -Sz.
rewrite /=; case: ifP => // _; first by move=> [<- <-]; split=> //; eexists.
case F: (fit _ _ _ _ _ _ _ _ _ _ _) => [[[c1 kw1] [[]|e]]|] //=; by move=> [<- <-]; split=> //; eexists.
Qed.

(** with cluster_sweep an object can be fitted once: the numbers of bands found by the first fit make the second one raise
    ValueError, whatever the data, and the levels stay those of the first *)
Theorem C58_refit_refuted fuel2 T2 (X2 : 'M[C]_(n, T2)) m2 (t2 : 'rV[C]_m2) : mr_sweep o -> res = Ok tt ->
  exists o2, mr_fit np x y fuel2 o' sharp X2 t2 = Some (o2, Err ValueError) /\ mr_levels o2 = mr_levels o'.
Proof.
move=> Sw Er; suff [E1 E2] : mr_sweep o' /\ isSome (mr_ncomp o').
  by rewrite /mr_fit E1 E2; eexists; split.
move: HF; rewrite Er /mr_fit Sw; case Nc: (mr_ncomp o) => [l|] //=.
case E: (mr_loop _ _ _ _ _ _ _ _ _ _ _ _ _ _ _ _) => [[[[lev kw] nc'] r]|] // [<- Er2]; split=> [|/=]; first by [].

  have keep lv idx D kw1 nc acc : isSome nc -> forall lev kw nc' r,
     mr_loop np x y fuel sharp t true (mr_means o) (mr_transform o) (size (mr_windows o)) (if mr_global o is Some l then l else nseq (size (mr_windows o)) true) lv idx D kw1 nc acc = Some (lev, kw, nc', r) -> isSome nc'.
    elim: lv idx D kw1 nc acc => [|[[w st] rk] lv IH] idx D kw1 nc acc Hn lev' kw' nc2 r' /=; first by move=> [_ _ <-].
    case: ifP => _; first by move=> [_ _ <-].
    case: D => [D|]; last by move=> [_ _ <-].
    case: (fit _ _ _ _ _ _ _ _ _ _ _) => [[[c1 kw2] [[]|e]]|] //; last by move=> [_ _ <-].
    case L: (level_count _ _ _ _ _ _) => [[k nc1]|e]; last by move=> [_ _ <-].
    have Hn1 : isSome nc1.
      move: L; rewrite /level_count; case: (nc) => // l; case: ifP => // _; by case: (level_sweep _ _ _) => //= v [_ <-].
    case: (cluster_omega _ _ _ _ _) => [c2|e]; last by move=> [_ _ <-].
    case: ifP => _; last exact: IH.
    by case: (scale_separation _ _ _) => [[lo hi]|e]; [exact: IH | move=> [_ _ <-]].
exact: keep E.
Qed.
End Fit.

(** after a clustering, a new fit of other data does not change what is clustered: the eigenvalues of the old levels are
    still used *)
Theorem C58_stale_refuted fuel n (o o1 o2 : mrcosts C n) sharp T (X : 'M[C]_(n, T)) m (t : 'rV[C]_m) k tr r :
  global_cluster_omega y o (Some k) tr = (o1, Ok r) -> mr_fit np x y fuel o1 sharp X t = Some (o2, Ok tt) ->
  exists o3, global_cluster_omega y o2 (Some k) tr = (o3, Ok r) /\ mr_omega o3 = mr_omega o1 /\ mr_levels o3 = mr_levels o2.
Proof.
rewrite /global_cluster_omega; case Et: (mr_table o) => [da|] //; case Ec: (mr_cluster _ _ _ _ _) => [r'|] // [<- <-].
rewrite {1}/mr_fit /=; case: ifP => // _; case: (mr_loop _ _ _ _ _ _ _ _ _ _ _ _ _ _ _ _) => [[[[lev kw] nc'] r2]|] // [<- _].
rewrite /mr_table /=; have -> : mr_cluster y (MrCosts (mr_windows o) (mr_steps o) (mr_ranks o) (Some (if mr_global o is Some l then l else nseq (size (mr_windows o)) true)) nc' (mr_sweep o) (mr_transform o) (mr_means o) kw (Some (size (mr_windows o))) T (Some lev) (Some da) (Some k) (Some r')) da k tr = Ok r' by rewrite -Ec.
by eexists.
Qed.

(** ** The global clustering of levels that do not fit together *)
(** shorter step, rank or n_components lists drop levels in fit, which still counts all of them; the clustering then raises *)
Theorem C58_truncated_refuted n (o : mrcosts C n) lev k tr : mr_omega o = None -> mr_levels o = Some lev ->
  size lev <> size (mr_windows o) -> exists o' e, global_cluster_omega y o k tr = (o', Err e).
Proof.
move=> Eo El Ne; rewrite /global_cluster_omega /mr_table Eo El; case: (match k with Some _ => k | None => _ end) => [k'|]; last by do 2 eexists.
case Ea: (all_ok _ _) => [l|e] /=; last by do 2 eexists.
have Sl : size l = size lev.
  elim: (lev) l Ea => [|c lv IH] l /=; first by move=> [<-].
  by case: (to_ds c) => //= b; case E: (all_ok _ _) => [l'|] //= [<-]; rewrite /= (IH _ E).
case Ei: (interp _ _) => [da|e]; last by do 2 eexists.
by have [E _ _ _] := interpE Ei; case: Ne; rewrite -Sl E.
Qed.
(** a level, other than the first, with a single window (that has a fast eigenvalue or not) makes the clustering raise *)
Theorem C58_single_window_refuted n (o : mrcosts C n) c1 lev d c f k tr : mr_omega o = None -> mr_levels o = Some (c1 :: lev) ->
  (d < size lev)%N -> nth c1 lev d = c -> c_fit c = Some f -> (size (f_res f) <= 1)%N ->
  exists o' e, global_cluster_omega y o k tr = (o', Err e).
Proof.
move=> Eo El Ld Ec Ef Sf; rewrite /global_cluster_omega /mr_table Eo El; case: (match k with Some _ => k | None => _ end) => [k'|]; last by do 2 eexists.
case Ea: (all_ok _ _) => [l|e]; cbn [bind]; last by do 2 eexists.
case Ei: (interp _ _) => [da|e]; last by do 2 eexists.
have [Sl Hl] := all_okP c1 (no_ds C) Ea; have := Hl d.+1 Ld.
have -> : nth c1 (c1 :: lev) d.+1 = c by exact: Ec.
rewrite /to_ds Ef.
case: (c_bands c) => // b; case: (cc_rank _) => // -[] // z; case: ifP => // _ [Ed].
move: Ei; rewrite /interp; case: l Sl Ed {Hl Ea} => // d0 l [Sl] Ed; case: ifP => // _.
case Es: (sources _ _) => [src|] //; exfalso; have [_ H] := sourcesP Es.
have [|rows [Fi _]] := H d (no_ds C); first by rewrite Sl.
move: Fi; rewrite /fill; case: ltnP => // L2; exfalso; move: L2.
rewrite size_map ltnNge; apply/negP/negPn; apply: leq_trans Sf.
rewrite size_filter; apply: leq_trans (count_size _ _) _; rewrite size_iota /ds_size.
by rewrite -[nth (no_ds C) l d]/(nth (no_ds C) (d0 :: l) d.+1) -Ed /= size_map.
Qed.
(** a column of eigenvalues that is slow in every window of every level is dropped before the clustering; after it, the
    reconstruction raises *)
Theorem C58_slow_column_refuted n (o o1 : mrcosts C n) lev c0 d f e k tr r : kmeans_ok (y_kmeans y) -> argsort_ok (y_argsort y) -> is_log (y_log10 y) ->
  mr_omega o = None -> mr_levels o = Some lev -> global_cluster_omega y o k tr = (o1, Ok r) ->
  (d < size lev)%N -> c_fit (nth c0 lev d) = Some f -> (e < f_pre f)%N -> (0 < size (f_res f))%N ->
  (forall d' f' b', (d' < size lev)%N -> c_fit (nth c0 lev d') = Some f' -> c_bands (nth c0 lev d') = Some b' ->
     (f_pre f' <= f_pre f)%N /\ forall j, (j < size (f_res f'))%N -> ba_cls b' j e = 0%N) ->
  exists err, global_scale_reconstruction x o1 = Err err.
Proof.
move=> KM AS LG Eo El; rewrite /global_cluster_omega /mr_table Eo El; case: (match k with Some _ => k | None => _ end) => [k'|] //.
case Ea: (all_ok _ _) => [l|] //; cbn [bind]; case Ei: (interp _ _) => [da|] //.
case Ec: (mr_cluster _ _ _ _ _) => [r'|] // [<- _] Ld Ef Le Lr Sl.
rewrite /global_scale_reconstruction /=; case: (mr_ndec o) => [nd|]; last by eexists.
case: r' Ec => cent cls Ec; rewrite El Ea; cbn [bind]; case: (deterp _ _ _) => [cl|]; cbn [bind]; last by eexists.
case Eb: (all_bands _ _ _ _ _ _) => [gs|]; cbn [bind]; last by eexists.
exfalso; have [_ Hg] := all_bandsP c0 Eb; have [_ Ecol _ _] := interpE Ei; have [Sz Hl] := all_okP c0 (no_ds C) Ea.
have ng0 : (0 < k')%N by have [/andP[]] := cluster_namedP KM AS LG Ec.
have := Hg d (fun _ _ _ => None) Ld; rewrite /level_bands Ef Lr ng0; case: (all_windows _) => [ls|] //; cbn [bind].
rewrite /= Ecol; case: eqP => // /handed_le H _; move: H; apply/negP; rewrite -ltnNge.
have Ds d' : (d' < size lev)%N -> (ds_rank (nth (no_ds C) l d') <= f_pre f)%N /\ e \notin kept_cols (nth (no_ds C) l d').
  move=> L'; have := Hl _ L'; rewrite {1}/to_ds; case Ef': (c_fit _) => [f'|] //; case Eb': (c_bands _) => [b'|] //.
  case: (cc_rank _) => // -[] // z; case: ifP => // _ [<-] /=; have [S1 S2] := Sl _ _ _ L' Ef' Eb'; split=> //.
  rewrite mem_filter; apply/negP => /andP[/hasP[j]]; rewrite mem_iota /ds_size /= size_map => J.
  by rewrite S2.
have Mx : (foldr maxn 0%N [seq ds_rank d | d <- l] <= f_pre f)%N.
  case: (posnP (size l)) => [/size0nil -> //|P]; have [|q Lq ->] := @max_attained [seq ds_rank d | d <- l]; first by rewrite size_map.
  rewrite size_map in Lq; rewrite (nth_map (no_ds C)) //; rewrite Sz in Lq; by have [] := Ds _ Lq.
have Sub : {subset union_cols l <= [seq c <- iota 0 (f_pre f) | c != e]}.
  move=> c; rewrite !mem_filter !mem_iota !add0n => /andP[/(has_nthP (no_ds C)) [q Lq Hq] Lc].
  rewrite /= in Lc; rewrite /= (leq_trans Lc Mx) andbT; apply: contraL Hq => /eqP ->; rewrite Sz in Lq; by have [] := Ds _ Lq.
have Un : uniq (union_cols l) by rewrite filter_uniq // iota_uniq.
apply: leq_ltn_trans (uniq_leq_size Un Sub) _; rewrite size_filter -[X in (_ < X)%N](size_iota 0) -(count_predC (predC1 e)) -[X in (X < _)%N]addn0 ltn_add2l.
by rewrite -has_count; apply/hasP; exists e; rewrite ?mem_iota //= negbK.
Qed.

(** a window whose eigenvalues are all slow, between two others of the only level: it is not on the axis that is clustered,
    and afterwards it takes the class of the window to its right.  Its slow part is counted in that band and again in the
    background. *)
Definition three (v0 v1 v2 : C) : level_ds C :=
  LevelDs [:: 0; 1; 2%:R] 1 (fun k _ => nth 0 [:: v0; v1; v2] k) (fun k _ => nth 0%N [:: 1%N; 0%N; 1%N] k).
Theorem C58_slow_window_refuted (v0 v1 v2 : C) (c0 c2 : nat) : exists da, interp 1 [:: three v0 v1 v2] = Ok da /\
  flat_values da = [:: v0; v2] /\ exists cl, deterp da [:: c0; c2] [:: three v0 v1 v2] = Ok cl /\
  [seq nth (fun _ _ => None) cl 0 k 0%N | k <- iota 0 3] = [:: Some c0; Some c2; Some c2].
Proof.
have I3 : increasing [:: 0 : C; 1; 2%:R] by rewrite /increasing /= ltr01 (ltr_nat C 1 2).
pose da := (Table [:: 0; 2%:R] [:: 0%N] 1 (fun d p q => if d == 0%N then fast_entry (three v0 v1 v2) (nth 0%N [:: 0%N; 2%N] p) (nth 0%N [:: 0%N] q)
  else if nth None (nth [::] [::] d.-1) p is Some k then fast_entry (nth (three v0 v1 v2) [:: three v0 v1 v2] d) k (nth 0%N [:: 0%N] q) else None)); exists da.
split.
  have Al : all (fun d : level_ds C => increasing (ds_times d)) [:: three v0 v1 v2] by apply/andP; split.
  by rewrite /interp Al.
split; first by [].
have I2 : increasing [:: 0 : C; 2%:R] by rewrite /increasing /= ltr0n.
have M : middles [:: 0 : C; 2%:R] = [:: 1] by rewrite /middles /= add0r divff // pnatr_eq0.
have Ed : increasing (da_times da) := I2.
have Ep : positions da = [:: (0%N, 0%N, 0%N); (0%N, 1%N, 0%N)] by [].
rewrite /deterp Ed Ep; eexists; split; first reflexivity.
have N0 : nearest_hi (da_times da) 0 = 0%N by rewrite /nearest_hi M /= ler10.
have N1 : nearest_hi (da_times da) 1 = 1%N by rewrite /nearest_hi M /= lexx.
have N2 : nearest_hi (da_times da) 2%:R = 1%N by rewrite /nearest_hi M /= (ler_nat C 1 2).
pose F (v : nat) := if (0%N, v, 0%N) \in [:: (0%N, 0%N, 0%N); (0%N, 1%N, 0%N)]
  then Some (nth 0%N [:: c0; c2] (index (0%N, v, 0%N) [:: (0%N, 0%N, 0%N); (0%N, 1%N, 0%N)])) else None.
transitivity [:: F (nearest_hi (da_times da) 0); F (nearest_hi (da_times da) 1); F (nearest_hi (da_times da) 2%:R)]; first by [].
by rewrite N0 N1 N2.
Qed.

(** the means in the background do not depend on costs_recon_kwargs *)
Theorem C58_background_means n (o : mrcosts C n) (inc : bool) :
  get_background x (MrCosts (mr_windows o) (mr_steps o) (mr_ranks o) (mr_global o) (mr_ncomp o) (mr_sweep o) (mr_transform o)
    inc (mr_kw o) (mr_ndec o) (mr_steps_n o) (mr_levels o) (mr_omega o) (mr_nglobal o) (mr_bands o)) = get_background x o.
Proof. by []. Qed.
End C58bad.
Print Assumptions C58_constructor.
Print Assumptions C58_constructor_check.
Print Assumptions C58_default_refuted.
Print Assumptions C58_no_count_refuted.
Print Assumptions C58_refit_refuted.
Print Assumptions C58_stale_refuted.
Print Assumptions C58_truncated_refuted.
Print Assumptions C58_single_window_refuted.
Print Assumptions C58_slow_column_refuted.
Print Assumptions C58_slow_window_refuted.
Print Assumptions C58_background_means.
