(** * C44, C45, C56: concrete cases *)
From Coq Require Import QArith.
From mathcomp Require Import all_ssreflect all_fingroup all_algebra all_field.
From Verif Require Import Py LinAlg Ideal Model_Operator Model_BOP Model_CostsWin Model_Costs Spec_Costs Spec_CostsWin.
From Verif Require Import Proofs_CostsWin Proofs_Costs Proofs_CostsBand Proofs_CostsFit Proofs_CostsLoop Proofs_BOPJac.
From Verif Require Import Properties_BOP Properties_BOPFit Properties_Costs Properties_CostsBand Properties_CostsFit Properties_CostsExact.
From Verif Require Proofs_BOP.
From Verif Require Model_Utils.
Set Implicit Arguments. Unset Strict Implicit. Unset Printing Implicit Defensive.
Import Order.TTheory GRing.Theory Num.Theory.
Local Open Scope ring_scope.
Local Notation "# n" := (BinInt.Z.of_nat n) (at level 5, format "# n").

Section Oracles.
Variable C : numClosedFieldType.

(** an argsort, and a clustering around the numbers n-1, ..., 1, 0 *)
Definition idx_sort (l : seq C) : seq nat := sort (fun a b => nth 0 l a <= nth 0 l b) (iota 0 (size l)).
Lemma idx_sort_ok : argsort_ok idx_sort.
Proof.
move=> l R; split; first by rewrite perm_sort.
apply: (@sort_sorted_in _ (fun a => a < size l)%N); last by apply/allP => a; rewrite mem_iota add0n.
move=> a b A B; apply: real_leVge; apply: (allP R); exact: mem_nth.
Qed.
Definition cents (n : nat) : seq C := [seq (n.-1 - j)%:R | j <- iota 0 n].
Definition nearest (cs : seq C) (v : C) : nat := find (fun c => all (fun c' => `|v - c| <= `|v - c'|) cs) cs.
Definition near_cluster (n : nat) (l : seq C) : seq nat * seq C := ([seq nearest (cents n) v | v <- l], cents n).
Lemma nearest_has (cs : seq C) v : cs != [::] -> has (fun c => all (fun c' => `|v - c| <= `|v - c'|) cs) cs.
Proof.
move=> N; have [||m M A] := @min_exists C [seq `|v - c| | c <- cs].
- by apply/allP => z /mapP[c _ ->]; apply: normr_real.
- by case: cs N.
case/mapP: M => c Mc Em; apply/hasP; exists c => //; apply/allP => c' Mc'.
by rewrite -Em; move/allP: A; apply; apply: map_f.
Qed.
Lemma near_cluster_ok : kmeans_ok near_cluster.
Proof.
move=> n l /andP[n0 _] R; have Sc : size (cents n) = n by rewrite size_map size_iota.
have N : cents n != [::] by rewrite -size_eq0 Sc -lt0n.
have L v : (nearest (cents n) v < n)%N by rewrite -[X in (_ < X)%N]Sc -has_find nearest_has.
split; rewrite ?size_map ?size_iota //.
- by apply/allP => j /mapP[v _ ->]; apply: L.
- by apply/allP => z /mapP[j _ ->]; apply: realn.
- by move=> i j I J E; rewrite !(nth_map 0) // E.
- move=> i j I J; rewrite (nth_map 0) //=.
  have /allP := nth_find 0 (nearest_has (nth 0 l i) N); apply; by apply: mem_nth; rewrite Sc.
Qed.
Definition y0 : cext C := CExt (fun T _ => T) id id idx_sort near_cluster (fun _ _ => 0).
Lemma y0_rounds T w : rounds (y_fl y0) T w. Proof. by left. Qed.
Lemma y0_log : is_log (y_log10 y0). Proof. by split=> // a; apply: gtr0_real. Qed.
End Oracles.

Section Case.
Let K := algCnumClosedField.
Let np := ideal K.
Let x := ideal_ext (fun _ : K => 1).
Let y := y0 K.
Let opts : vopts K := VOpts 1 52 2%:R true 30 (10%:R ^+ 6)^-1 (10%:R ^+ 12)^-1 true.
Let con : constr K := ConSet K (CSet false false false false).
Let cfg : bop_cfg K := BopCfg false true 0 (TInt (Zpos (xO xH))) EsAuto con None false 200%N%:Z (Some opts).
Let two : Model_Utils.rank_arg := Model_Utils.RInt #2.

Lemma rank2 k (s : 'rV[K]_k) n m : (1 < k)%N -> np_rank np s n m two = 2%N :> nat.
Proof. by move=> L; rewrite /two ideal_int_rank // (minn_idPl L). Qed.

(** BOPDMD of rank two with two given eigenvalues: it succeeds on any data *)
Lemma bop_runs w (X : 'M[K]_(2, w)) (t : 'rV[K]_w) basis al sn ti op : (1 < w)%N ->
  (forall qU, basis = Some qU -> projT1 qU = 2%N) ->
  exists q (P : 'M[K]_(2, q)) (u : bop_op K 2 q 2) basis',
    bop_fit np x 0 (Bop cfg two basis (Some (existT _ 2%N al)) sn ti op) X true t =
      Some (Bop cfg two basis' (Some (existT _ 2%N al)) (Some (existT _ w X)) (Some (existT _ w t)) (Some (Some (existT _ q (existT _ 2%N u)))), Ok tt)
    /\ (forall qU, basis = Some qU -> basis' = basis).
Proof.
move=> w1 Hb; rewrite /bop_fit /=; case: (@eqP _ w w) => // e; rewrite (eq_axiomK e) castmx_id /fit_from /=.
rewrite (@rank2 _ (np_svd np X).1.2 2 w) ?leq_min //.
set d0 := set_rank _ 2.
have [q [P [Eb Hq]]] : exists q (P : 'M[K]_(2, q)), get_basis np d0 X = Ok (existT _ q P)
    /\ forall qU, basis = Some qU -> Some (existT _ q P) = basis.
  rewrite /get_basis /d0 /= {d0}; case: basis Hb => [[q P]|] /= Hb; last by do 2 eexists.
  have /= Eq := Hb _ erefl; have -> : rank_is (Model_Utils.RInt (Zpos (xO xH))) q by rewrite Eq.
  by exists q, P; split.
rewrite Eb /get_alpha /= /run_operator /=.
have [v ->] : exists v, compute_operator np x 0 opts P (fit_data cfg P X) t al = Some (Ok v).
  rewrite /compute_operator /=; case E: (single_trial _ _ _ _ _ _ _) => [v|er]; first by eexists.
  by move: E; rewrite /single_trial; case E: (variable_projection _ _ _ _ _ _ _ _) => [v|er'] //=; have [_ [s [<-]]] := C41_errors E.
by exists q, P, v, (Some (existT _ q P)); split.
Qed.

Let kw0 : kwargs K 2 := Kw None cfg.
Let al0 : {r & 'rV[K]_r} := existT _ 2%N (const_mx 'i).
(** svd_rank=2, initialize_artificially=True, init_alpha given *)
Let start (g : bool) : costs K 2 := Costs (CCfg (Some two) g true false (Some al0) false true None) no_wins None None.

Lemma loop_runs (g : bool) (kw : kwargs K 2) (X : 'M[K]_(2, 3)) (t : 'rV[K]_3) (ls : seq (seq nat)) (d : bop K 2) :
  kw_cfg kw = cfg -> (g -> exists P, kw_basis kw = Some (existT _ 2%N P)) -> (~~ g -> kw_basis kw = None) ->
  b_cfg d = cfg -> b_alpha d = Some al0 -> (g -> b_rank d = two /\ b_basis d = kw_basis kw) ->
  exists rs, fit_loop np x y 0 (c_cfg (start g)) kw 1 X t 2 2 two (Some al0) ls d = Some (Ok rs).
Proof.
move=> Ck Bg Bn; elim: ls d => [|l ls IH] d Cd Ad Gd; first by exists [::].
rewrite /=; set Xw := winput _ _ _; set tw := wtime _.
have Wr : window_rank np (c_cfg (start g)) Xw two = 2%N by rewrite /window_rank /= /rank_of rank2.
have [bs [Hb Ep]] : exists bs, (forall qU, bs = Some qU -> projT1 qU = 2%N) /\
    prepare np (c_cfg (start g)) kw Xw two d = Bop cfg two bs (Some al0) (b_snap d) (b_time d) (b_op d).
  rewrite /prepare Wr /with_rank Cd Ad; case: (g) Bg Bn Gd => /= Bg Bn Gd.
    have [P E] := Bg isT; have [Er Eb] := Gd isT; exists (kw_basis kw); split; first by move=> qU; rewrite E => -[<-].
    by rewrite -Er -Eb -Cd -Ad; case: (d).
  by exists (kw_basis kw); split; first by rewrite Bn.
rewrite /fit_window Ep; have [q [P [u [bs' [-> Hbs]]]]] := @bop_runs 2 Xw tw bs (const_mx 'i) (b_snap d) (b_time d) (b_op d) isT Hb.
set d1 := Bop _ _ bs' _ _ _ _; rewrite /=.
have [|||rs ->] := IH (after (c_cfg (start g)) (Some al0) d1 (bo_eigs u)).
- by rewrite /after; case: (g).
- by rewrite /after; case: (g).
- move=> Hg; rewrite /after /= Hg /=; split=> //.
  have [P2 E2] := Bg Hg; have [_ Eb] := Gd Hg; move: Ep; rewrite /prepare /= Hg => Ep.
  have Ebs : bs = kw_basis kw by rewrite -Eb Ep.
  by rewrite (Hbs (existT _ 2%N P2)) Ebs.
by eexists.
Qed.

Lemma sv_rE n m (X : 'M[K]_(n, m)) rk : sv_r (compute_svd np X rk) = rank_of np X rk.
Proof. by rewrite /compute_svd /svd_trunc /rank_of; case: (np_svd np X) => [[]]. Qed.

(** the fit of any data of two variables and three time steps with windows of two, both ways *)
Example C56_case g (X : 'M[K]_(2, 3)) (t : 'rV[K]_3) :
  exists c' kw' rs, [/\ fit np x y 0 (start g) kw0 1 X t #2 #1 = Some (c', kw', Ok tt), c_fit c' = Some (@Fitted _ 2 2 2 rs) & size rs = 2%N].
Proof.
have R2 : rank_of np X two = 2%N by rewrite /rank_of (@rank2 _ (np_svd np X).1.2).
pose s1 := Wins (Some #2) (Some #1) (Some #3) (Some #2) (Some #2) (Some false).
have Ew : fit_windows (y_fl y) (c_win (start g)) #2 #3 #3 #2 #1 = (s1, Ok tt) by [].
have El : all_windows s1 = Ok [:: [:: 0; 1]; [:: 1; 2]]%N by [].
case: g Ew => Ew.
  pose kw1 := Kw (Some (existT _ _ (sv_U (compute_svd np X two)))) cfg.
  have [||||||rs E] := @loop_runs true kw1 X t [:: [:: 0; 1]; [:: 1; 2]]%N (start_dmd kw1 two (Some al0)) => //.
    by rewrite /kw1 /=; move: (sv_r _) (sv_U _) (sv_rE X two) => q U; rewrite R2 => Eq _; subst q; exists U.
  have [Sz _] := loop_stores E.
  by do 2 eexists; exists rs; split; [apply: (fit_ok Ew _ _ El _ E); rewrite // /allocate /= R2 -[Model_Utils.RInt _]/two R2 | |].
have [||||||rs E] := @loop_runs false kw0 X t [:: [:: 0; 1]; [:: 1; 2]]%N (start_dmd kw0 two (Some al0)) => //.
have [Sz _] := loop_stores E.
by do 2 eexists; exists rs; split; [apply: (fit_ok Ew _ _ El _ E); rewrite // /allocate /= R2 | |].
Qed.

(** fit, cluster in one band, reconstruct: at each of the three time steps the result is a weighted mean of the windows *)
Example C44_case g (X : 'M[K]_(2, 3)) (t : 'rV[K]_3) : exists c1 kw1 c2 f b G,
  [/\ fit np x y 0 (start g) kw0 1 X t #2 #1 = Some (c1, kw1, Ok tt), cluster_omega y c1 true 1 (Some Absolute) = Ok c2,
      Proofs_CostsFit.fit_state c2 (listed 3 2 1) f, c_bands c2 = Some b /\ lowest_used f b & global_reconstruction x c2 true = Ok G] /\
  forall s, (s < 3)%N -> has (fun l => s \in l) (listed 3 2 1) /\ exists wt : nat -> K, weights (listed 3 2 1) s wt.
Proof.
have [c1 [kw1 [rs [F Ef Sz]]]] := C56_case g X t.
have KM : kmeans_ok (y_kmeans y) := @near_cluster_ok K.
have AS : argsort_ok (y_argsort y) := @idx_sort_ok K.
have LG : is_log (y_log10 y) := y0_log K.
have [||c2 Ec] := @C45_succeeds K y KM AS LG 2 c1 _ 1 Absolute Ef; [by rewrite /= Sz | by left |].
have [f [b [G [Ti FS Eb EN EG]]]] := @C44_pipeline K np x y 0 2 (start g) kw0 1 3 X 3 t 2 1 c1 kw1 1 (Some Absolute) c2 true KM AS LG isT isT (y0_rounds K _ _) F Ec.
have [b' [[Eb' [En' _] _ Am Rg] [Ec2 _ _]]] := C45_bands KM AS LG Ef Ec.
have Ebb : b' = b by move: Eb'; rewrite Eb => -[].
rewrite {}Ebb in En' Am Rg Eb'.
have Eff : f = Fitted 2 rs by move: (fs_fit FS); rewrite Ec2 Ef => -[].
have EP : exp_positive (x_exp x) by move=> z _; exact: ltr01.
exists c1, kw1, c2, f, b, G; split.
  split=> //; split=> //; exists 0%N, 0%N; rewrite Eff /= Sz; split=> //.
  have /(_ 0%N 0%N) := Rg; rewrite Am ltnS leqn0 => H; apply/eqP; apply: H; by split; rewrite /= ?Sz.
move=> s Ls; have Hs : has (fun l => s \in l) (listed 3 2 1) by case: s Ls => [|[|[|s]]].
split=> //; have [r0] : exists r0 : wres K 2 (f_w f), true by case: (f_res f) (fs_size FS) => // r0 ? _; exists r0.
move=> _; have [|wt [W _]] := C44_average r0 EP FS Eb _ EG Hs; last by exists wt.
move=> _; exists 0%N, 0%N; rewrite Eff /= Sz; split=> //.
have /(_ 0%N 0%N) := Rg; rewrite Am ltnS leqn0 => H; apply/eqP; apply: H; by split; rewrite /= ?Sz.
Qed.

(** one window with the eigenvalues 1 and i: the clustering numbers the fast one first, the bands do not *)
Let slow_fast : fitted K 1 :=
  @Fitted K 1 1 2 [:: WRes (const_mx 1 : 'M[K]_(1, 2)) (\row_(j < 2) (if j == 0 then 1 else 'i)) (const_mx 1) 0 0].
Example C45_case : exists c' b,
  let c := Costs (c_cfg (start true)) no_wins (Some slow_fast) None in
  [/\ cluster_omega y c true 2 (Some Absolute) = Ok c', c_bands c' = Some b, uniq (ba_cent b), ba_cls b 0 0 = 0%N & ba_cls b 0 1 = 1%N].
Proof.
have KM : kmeans_ok (y_kmeans y) := @near_cluster_ok K.
have AS : argsort_ok (y_argsort y) := @idx_sort_ok K.
have LG : is_log (y_log10 y) := y0_log K.
set c := Costs _ _ _ _; have Ef : c_fit c = Some slow_fast by [].
have [||c' Ec] := @C45_succeeds K y KM AS LG 1 c slow_fast 2 Absolute erefl; [by [] | by left |].
have [b [[Eb [En _] _ Am Rg] _]] := C45_bands KM AS LG Ef Ec.
have E0 : entry slow_fast 0 0 by [].
have E1 : entry slow_fast 0 1 by [].
have F0 : freq slow_fast 0 0 = 0.
  by rewrite /freq /omega_at /= /pad insubT /= mxE /= (Creal_ImP _ (@real1 _)) normr0.
have F1 : freq slow_fast 0 1 = 1.
  by rewrite /freq /omega_at /= /pad insubT /= mxE /= Im_i normr1.
have [l [Tl [Pc _ Lb]]] := C45_renumbered KM AS LG Ef Ec Eb.
have Fl : flat_omega slow_fast = [:: omega_at slow_fast 0 0; omega_at slow_fast 0 1] by [].
have El : l = [:: freq slow_fast 0 0; freq slow_fast 0 1].
  move: Tl; rewrite Fl /=; case: l {Pc Lb} => [|u [|v [|? ?]]] //= -[<- <-]; by [].
rewrite {}El F0 F1 /= in Pc Lb.
have Uc : uniq (ba_cent b) by rewrite (perm_uniq Pc) /cents /= inE subnn subn0 oner_eq0.
have Ne : ba_cls b 0 0 != ba_cls b 0 1.
  rewrite (Lb 0 0 0 1)%N // /nearest /cents /=.
  by rewrite !subn0 !subnn !subr0 !sub0r !subrr !normrN !normr0 !normr1 !lexx !ler01 /= ler10.
have Or := C45_order KM AS LG Ef Ec Eb Uc (fun E => ltac:(discriminate E)) E1 E0.
have L0 := Rg _ _ E0; have L1 := Rg _ _ E1.
have Nl : ~~ (ba_cls b 0 1 < ba_cls b 0 0)%N by apply/negP => /Or; rewrite F0 F1 ltr10.
exists c', b; split=> //; move: Ne Nl L0 L1; by case: (ba_cls b 0 0) (ba_cls b 0 1) => [|[|?]] [|[|?]].
Qed.
End Case.
Print Assumptions C56_case.
Print Assumptions C44_case.
Print Assumptions C45_case.
