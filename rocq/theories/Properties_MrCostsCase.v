(** * C58: a concrete case with two levels *)
From Coq Require Import QArith.
From mathcomp Require Import all_ssreflect all_fingroup all_algebra all_field.
From Verif Require Import Py LinAlg Ideal Model_Operator Model_BOP Model_CostsWin Model_Costs Model_MrCosts Spec_Costs Spec_CostsWin Spec_MrCosts.
From Verif Require Import Proofs_CostsWin Proofs_Costs Proofs_CostsBand Proofs_CostsFit Proofs_CostsLoop Proofs_MrInterp Proofs_MrFit Proofs_BOPJac Proofs_CDMD.
From Verif Require Import Properties_BOP Properties_BOPFit Properties_Costs Properties_CostsBand Properties_CostsFit Properties_CostsCase Properties_MrCosts.
From Verif Require Model_Utils.
Set Implicit Arguments. Unset Strict Implicit. Unset Printing Implicit Defensive.
Import Order.TTheory GRing.Theory Num.Theory.
Local Open Scope ring_scope.
Local Notation "# n" := (BinInt.Z.of_nat n) (at level 5, format "# n").

Section Oracles.
Variable C : numClosedFieldType.
(** in place of tanh: -1 for negative numbers; the data of a window of length w are weighted by j / w *)
Definition ramp (v : C) : C := if v < 0 then -1 else v.
Definition y1 : cext C := CExt (fun T _ => T) ramp id (@idx_sort C) (@near_cluster C) (fun _ _ => 0).
Lemma kernE w j : (j < w)%N -> lv_kern y1 1 w j = j%:R / w%:R.
Proof.
move=> L; have w0 : (0 : C) < w%:R by rewrite ltr0n (leq_trans _ L).
rewrite /lv_kern /= /ramp !mul1r ifF; last first.
  by apply/negbTE; rewrite -real_leNgt ?real0 ?divr_ge0 ?ler0n // ger0_real // divr_ge0 ?ler0n.
rewrite ifT; first by rewrite opprK addrK.
by rewrite pmulr_llt0 ?invr_gt0 // -addrA -opprD subr_lt0 -(natrD _ w 1) ltr_nat addn1 ltnS ltnW.
Qed.
(** two clusters of zeros and ones *)
Lemma cents2 : cents C 2 = [:: 1; 0]. Proof. by []. Qed.
Lemma sort2 : idx_sort (cents C 2) = [:: 1; 0]%N.
Proof. by rewrite cents2 /idx_sort /sort /= ler10. Qed.
Lemma near0 : nearest (cents C 2) 0 = 1%N.
Proof. by rewrite cents2 /nearest /= !subr0 sub0r normrN normr1 normr0 ler10 ler01 !lexx. Qed.
Lemma near1 : nearest (cents C 2) 1 = 0%N.
Proof. by rewrite cents2 /nearest /= subrr subr0 normr0 normr1 lexx ler01. Qed.
Lemma cluster2 (om : seq C) (b : seq bool) : (1 < size om)%N -> [seq abs_im z | z <- om] = [seq (v : bool)%:R | v <- b] ->
  cluster_values y1 2 (transform_omega y1 (Some Absolute) om) = Ok ([:: 0; 1], [seq (v : bool) : nat | v <- b]).
Proof.
move=> S E; rewrite /transform_omega /transform_named /cluster_values; cbn [bind].
have -> : all_finite [seq Some (abs_im z) | z <- om] = Ok [seq (v : bool)%:R | v <- b].
  rewrite -E /all_finite; have -> : all isSome [seq Some (abs_im z) | z <- om] by elim: (om).
  by congr Ok; elim: (om) => //= a l ->.
cbn [bind]; have Sb : size b = size om by rewrite -(size_map (fun v : bool => v%:R : C)) -E size_map.
rewrite size_map Sb S /= /near_cluster /relabel [y_argsort _ _]sort2 /=.
have -> : lut_of [:: 1; 0]%N [:: 0; 1]%N = [:: 1; 0]%N by [].
rewrite -map_comp; have Nb (v : bool) : nearest (cents C 2) v%:R = (~~ v) :> nat by case: v; rewrite ?near0 ?near1.
rewrite (eq_map (f2 := fun v : bool => (~~ v) : nat)) // ifT; last by apply/allP => j /mapP[[] _ ->].
by congr (Ok (_, _)); rewrite -map_comp; apply: eq_map => -[].
Qed.
Lemma half (a b m : nat) : (a + b = m * 2)%N -> (a%:R + b%:R) / 2%:R = m%:R :> C.
Proof. by move=> E; rewrite -natrD E natrM mulfK // pnatr_eq0. Qed.
Add Ring Kring : (rt C).
Local Ltac rg := rewrite ?norm1 ?norm2 ?norm3 -?/(zR C) -?/(oR C); match goal with |- @eq _ ?a ?b => change (@eq (Num.ClosedField.sort C) a b) end; ring.
Lemma off1 (a p q : C) : a + p - (a + (a + p + (a + q))) / 3%:R = (p + p - q) / 3%:R.
Proof.
have n3 : (3%:R : C) != 0 by rewrite pnatr_eq0.
by apply: (mulIf n3); rewrite mulrBl !mulfVK // (_ : 3%:R = 1 + (1 + 1) :> C) //; rg.
Qed.
Lemma off2 (a p q : C) : a + q - (a + (a + p + (a + q))) / 3%:R = (q + q - p) / 3%:R.
Proof.
have n3 : (3%:R : C) != 0 by rewrite pnatr_eq0.
by apply: (mulIf n3); rewrite mulrBl !mulfVK // (_ : 3%:R = 1 + (1 + 1) :> C) //; rg.
Qed.
Lemma mean_eq (a b : C) : b - (a + b) / 2%:R = 0 -> a = b.
Proof.
have n2 : (2%:R : C) != 0 by rewrite pnatr_eq0.
move/subr0_eq=> E; have F : b * 2%:R = a + b by rewrite {1}E mulfVK.
by apply: (addIr b); rewrite -F mulr_natr mulr2n.
Qed.
Lemma det22 (A : 'M[C]_2) : \det A = A 0 0 * A 1 1 - A 0 1 * A 1 0.
Proof.
rewrite (expand_det_row _ ord0) !big_ord_recl big_ord0 addr0 /cofactor !det_mx11 !mxE /= expr0 expr1 mul1r mulN1r mulrN.
by congr (_ * A _ _ - A _ _ * A _ _); apply/val_inj.
Qed.
Lemma cross (p0 q0 p1 q1 h m k : C) : (h * ((p0 + p0 - q0) * m * k)) * (h * ((p1 + p1 - q1) * m * k + (q1 + q1 - p1) * m * (k + k)))
   - (h * ((p0 + p0 - q0) * m * k + (q0 + q0 - p0) * m * (k + k))) * (h * ((p1 + p1 - q1) * m * k)) = (h * m * k) ^+ 2 * ((1 + (1 + 1)) * (1 + 1)) * (p0 * q1 - p1 * q0).
Proof. rewrite expr2; rg. Qed.
Lemma spread2 (a b s : nat) (v : 'I_2 -> C) : spread [:: a; b] v s = (if a == s then v 0 else 0) + (if b == s then v 1 else 0).
Proof.
rewrite /spread big_mkcond !big_ord_recl big_ord0.
rewrite /= addr0; have -> : lift ord0 ord0 = 1 :> 'I_2 by apply/val_inj.
by [].
Qed.
(** four windows of length two with equal weights *)
Lemma avg4 (x : ext C) n (r0 r1 r2 r3 : wres C n 2) lb (u : nat -> wres C n 2 -> nat -> 'I_n -> 'I_2 -> C) i (m : nat -> C) (s : 'I_5) :
  let ls := [:: [:: 0; 1]; [:: 1; 2]; [:: 2; 3]; [:: 3; 4]]%N in let rs := [:: r0; r1; r2; r3] in
  (forall a, build_kern x 2 a = 1) -> 0%N \in lb -> (forall k a, (k < 4)%N -> u k (nth r0 rs k) 0%N i a = m k) ->
  quot (numerator x ls rs lb u 0 i s) (denominator x 2 ls s)
  = Some (nth 0 [:: m 0%N; (m 0%N + m 1%N) / 2%:R; (m 1%N + m 2%N) / 2%:R; (m 2%N + m 3%N) / 2%:R; m 3%N] s).
Proof.
move=> ls rs Kn L0 V; have n2 : (1 + 1 == 0 :> C) = false by rewrite -(natrD _ 1 1) pnatr_eq0.
rewrite /numerator /denominator /= L0 !spread2 !Kn.
have := V 0%N; have := V 1%N; have := V 2%N; have := V 3%N; rewrite /= => V3 V2 V1 V0.
rewrite !V0 // !V1 // !V2 // !V3 // !mulr1.
by case: s => -[|[|[|[|[|]]]]] //= _; rewrite ?addr0 ?add0r /quot ?addr0 ?n2 ?oner_eq0 ?divr1 // -(natrD _ 1 1).
Qed.
(** the table of a level with four and a level with two windows *)
Lemma table2 (om1 om2 : nat -> nat -> C) (cls1 cls2 : nat -> nat -> nat) (v : C) :
  let d1 := LevelDs [:: 1%:R; 3%:R; 5%:R; 7%:R] 2 om1 cls1 in let d2 := LevelDs [:: 2%:R; 6%:R] 2 om2 cls2 in
  (forall k a, (k < 4)%N -> (a < 2)%N -> cls1 k a = (a.+1 == 1%N) :> nat) -> (forall k a, (k < 2)%N -> (a < 2)%N -> cls2 k a = (a.+1 == 2%N) :> nat) ->
  (forall k, (k < 4)%N -> om1 k 0%N = v) -> (forall k, (k < 2)%N -> om2 k 1%N = v) ->
  exists da, [/\ interp 2 [:: d1; d2] = Ok da, da_times da = ds_times d1, da_cols da = [:: 0; 1]%N, da_levels da = 2%N &
    (1 < size (flat_values da))%N /\ all (pred1 v) (flat_values da)].
Proof.
move=> d1 d2 C1 C2 O1 O2.
have R2 : kept_rows d2 = [:: 0; 1]%N by rewrite /kept_rows /ds_size /= !C2.
have Co : union_cols [:: d1; d2] = [:: 0; 1]%N by rewrite /union_cols /= /kept_cols /ds_size /= !C1 //= !C2.
have [src Es] : exists src, fill (row_times d2) (ds_times d1) = Ok src.
  rewrite /row_times R2 /fill /= /interp_at /= !ler_nat /=; by eexists.
eexists; split.
- rewrite /interp /increasing /= !ltr_nat /= Es; cbn [bind]; rewrite Co; reflexivity.
- by [].
- by [].
- by [].
set da := Table _ _ _ _.
have V d p q u : (d < 2)%N -> (p < 4)%N -> da_val da d p q = Some u -> u = v.
  case: d => [|[|]] // _ P; rewrite /=.
    rewrite [nth 0%N (iota 0 4) p](nth_iota 0%N 0 P) add0n /fast_entry; case: ifP => // /andP[/= Hc].
    by rewrite C1 //; case: (nth _ _ q) Hc => [|[|]] // _ _ [<-]; rewrite O1.
  case Ek: (nth None _ p) => [k|] //; have K : (k < 2)%N.
    move: Ek; case: (ltnP p (size src)) => S; last by rewrite nth_default // size_map.
    by rewrite (nth_map None) //; case: (nth None src p) => //= j [<-]; rewrite R2; case: j => [|[|]] //= j; rewrite nth_nil.
  rewrite /fast_entry /=; case: ifP => // /andP[Hc].
  by rewrite C2 //; case: (nth _ _ q) Hc => [|[|]] // _ _ [<-]; rewrite O2.
have M p : p \in positions da -> [/\ (p.1.1 < 2)%N, (p.1.2 < 4)%N & isSome (da_val da p.1.1 p.1.2 p.2)].
  rewrite mem_filter => /andP[S /allpairsP[pp [A _ E]]]; rewrite E in S *; case/allpairsP: A => dk [D' K' E'].
  rewrite E' in S *; by move: D' K' S; rewrite !mem_iota !add0n.
have Z p : (p < 4)%N -> (0, p, 0)%N \in positions da.
  move=> P; rewrite mem_filter; apply/andP; split.
    by rewrite /= [nth 0%N (iota 0 4) p](nth_iota 0%N 0 P) add0n /fast_entry /= C1.
  by apply/allpairsP; exists ((0, p), 0)%N; split=> //; apply/allpairsP; exists (0, p)%N; split; rewrite ?mem_iota.
split.
  rewrite size_map; apply: (@uniq_leq_size _ [:: (0, 0, 0); (0, 1, 0)]%N); first by [].
  by move=> p; rewrite !inE => /orP[] /eqP ->; exact: Z.
apply/allP => u /mapP[p /M[P1 P2]]; case E: (da_val _ _ _ _) => [w|] // _ ->; by apply/eqP; exact: V P1 P2 E.
Qed.
Lemma third (a b c m : nat) : (a + (b + c) = m * 3)%N -> (a%:R + (b%:R + c%:R)) / 3%:R = m%:R :> C.
Proof. by move=> E; rewrite -!natrD E natrM mulfK // pnatr_eq0. Qed.
Lemma labels_lt (b : bands C) slides pre n : (forall k a, (k < slides)%N -> (a < pre)%N -> (ba_cls b k a < n)%N) ->
  all (fun j => (j < n)%N) (labels_of b slides pre).
Proof.
move=> H; apply/allP => j; rewrite mem_undup mem_sort => /flattenP[l /mapP[k]]; rewrite mem_iota add0n => /andP[_ Lk] -> /mapP[a].
by rewrite mem_iota add0n => /andP[_ La] ->; exact: H.
Qed.
(** one step of the loop over the levels *)
Lemma loop_step (np : numpy C) (x : ext C) (y : cext C) fuel n sharp T m (t : 'rV[C]_m) inc tr ndec gl w st rk lv idx (X : 'M[C]_(n, T)) kw l acc
    c1 c2 kw1 k lo hi : (idx < size gl)%N ->
  fit np x y fuel (new_costs C n rk (nth true gl idx)) kw sharp X t w st = Some (c1, kw1, Ok tt) ->
  (idx < size l)%N -> nth None l idx = Some k -> cluster_omega y c1 true k tr = Ok c2 ->
  (if (idx < ndec.-1)%N then scale_separation x c2 inc = Ok (lo, hi) /\ forall i (s : 'I_T), isSome (lo i s) else True) ->
  mr_loop np x y fuel sharp t false inc tr ndec gl ((w, st, rk) :: lv) idx (Some X) kw (Some l) acc
  = mr_loop np x y fuel sharp t false inc tr ndec gl lv idx.+1
      (if (idx < ndec.-1)%N then Some (\matrix_(i, j) odflt 0 (lo i j)) else Some X) kw1 (Some l) (rcons acc c2).
Proof.
move=> G F L K Cl S; rewrite /= G F L K; cbn [negb]; rewrite Cl; case: ifP S => // _ [-> All].
by rewrite /matrix_of ifT //; apply/forallP => i; apply/forallP => j.
Qed.
Lemma rank_unit n m (P : 'M[C]_n) (A : 'M[C]_(n, m)) : P \in unitmx -> \rank (P *m A) = \rank A.
Proof. by move=> U; rewrite -mxrank_tr trmx_mul mxrankMfree ?row_free_unit ?unitmx_tr // mxrank_tr. Qed.
End Oracles.

Section Case.
Let K := algCnumClosedField.
Let np := ideal K.
Let x := ideal_ext (fun _ : K => 1).
Let y := y1 K.

(** the eigenvalues: one i, the others 0; BOPDMD does not iterate *)
Let spin r : 'rV[K]_r := \row_j (if (nat_of_ord j).+1 == r then 'i else 0).
Let opts : vopts K := VOpts 1 52 2%:R true 0 (10%:R ^+ 6)^-1 (10%:R ^+ 12)^-1 true.
Let cfg : bop_cfg K := BopCfg false true 0 (TInt (Zpos (xO xH))) EsAuto (ConFun (fun r _ => spin r)) None false 200%N%:Z (Some opts).
Let two : Model_Utils.rank_arg := Model_Utils.RInt #2.

Lemma full_svd q k (Y : 'M[K]_(q, k)) rk : \rank Y = k -> sv_r (compute_svd np Y rk) = k -> diag_mx (sv_s (compute_svd np Y rk)) \in unitmx.
Proof.
have := ideal_svdP Y; rewrite /compute_svd /svd_trunc -[ideal_svd Y]/(np_svd np Y); case: (np_svd np Y) => [[U s] Vh] /= [EY _ _ _ _] RY Rk.
have Us : diag_mx s \in unitmx.
  rewrite -row_full_unit -col_leq_rank; apply: leq_trans (geq_minr _ _) _; rewrite -{1}RY EY.
  exact: leq_trans (mxrankM_maxl _ _) (mxrankM_maxr _ _).
have nz j : s 0 j != 0.
  by move: Us; rewrite unitmxE det_diag unitfE => /prodf_neq0 /(_ j isT).
by rewrite unitmxE det_diag unitfE; apply/prodf_neq0 => j _; rewrite mxE.
Qed.

(** twice the means of neighbouring columns *)
Definition mid w (X : 'M[K]_(2, w.+1)) : 'M[K]_(2, w) := (2%:R)^-1 *: (col' ord_max X + col' ord0 X).

Lemma rank_two k (s : 'rV[K]_k) n m : np_rank np s n m two = minn 2 k :> nat.
Proof. by rewrite /two ideal_int_rank. Qed.
Lemma svd_two n m (X : 'M[K]_(n, m)) : sv_r (compute_svd np X two) = minn 2 (minn n m).
Proof. by rewrite sv_rE /rank_of rank_two. Qed.

Lemma bop_spins w (X : 'M[K]_(2, w.+1)) (t : 'rV[K]_w.+1) sn ti op : (0 < w <= 2)%N -> \rank (mid X) = w ->
  exists q (u : bop_op K 2 q w) d, [/\ bop_fit np x 0 (Bop cfg two None None sn ti op) X true t = Some (d, Ok tt),
    b_op d = Some (Some (existT _ q (existT _ w u))), b_cfg d = cfg & bo_eigs u = spin w].
Proof.
have [Sv _] := ideal_contracts K; move=> /andP[w0 w2] Rk; rewrite /bop_fit /=; case: (@eqP _ w.+1 w.+1) => // e; rewrite (eq_axiomK e) castmx_id /fit_from /=.
have E2 : np_rank np (np_svd np X).1.2 2 w.+1 two = 2%N :> nat by rewrite rank_two; case: (w) w0 w2 => [|[|[|?]]].
rewrite E2 /get_basis /= -[Model_Utils.RInt _]/two.
have := svd_two X; rewrite [minn 2 _](_ : _ = 2%N); last by case: (w) w0 w2 => [|[|[|?]]].
have Uu : adj (sv_U (compute_svd np X two)) *m sv_U (compute_svd np X two) = 1%:M.
  by have [] := compute_svd_facts two (Sv _ _ X).
move: (sv_U _) Uu; move: (sv_r _) => q P UP Eq; subst q.
rewrite /get_alpha /= /init_eigs.
set Y := (2%:R)^-1 *: _; have EY : Y = adj P *m mid X.
  by rewrite /Y /mid -scalemxAr mulmxDr; congr (_ *: (_ + _)); apply/matrixP => i j; rewrite !mxE; apply: eq_bigr => k _; rewrite !mxE.
have UPt : adj P \in unitmx by move: (mulmx1_unit UP) => [].
have Ry : \rank Y = w by rewrite EY rank_unit.
have Sw : sv_r (compute_svd np Y two) = w by rewrite svd_two; case: (w) w0 w2 => [|[|[|?]]].
have -> : Model_Utils.RInt (Zpos (xO xH)) = two by [].
rewrite (full_svd Ry Sw); move: (ideal_eig _).1; rewrite Sw => al.
rewrite /run_operator /=.
do 3 eexists; split; reflexivity.
Qed.

Let kw0 : kwargs K 2 := Kw None cfg.
Let gr (rk : Model_Utils.rank_arg) : ccfg K := CCfg (Some rk) false false false None false true None.
Let g0 : ccfg K := gr two.
(** an svd_rank that selects two columns *)
Let picks2 (rk : Model_Utils.rank_arg) : Prop := forall T (Z : 'M[K]_(2, T)), (1 < T)%N -> rank_of np Z rk = 2%N.
Lemma two_picks : picks2 two. Proof. by move=> T Z T1; rewrite /rank_of rank_two (minn_idPl T1). Qed.
(** what is known about the windows *)
Let good T (X : 'M[K]_(2, T)) (t : 'rV[K]_T) w (l : seq nat) (r : wres K 2 w.+1) : Prop :=
  [/\ wr_r r = w, wr_mean r = wmean (cut X w.+1 l), wr_time r = cut t w.+1 l & forall c, pad (wr_eigs r) c = if c.+1 == w then 'i else 0].
Lemma loop_spins rk T (X : 'M[K]_(2, T)) (t : 'rV[K]_T) w ls d : picks2 rk -> (0 < w <= 2)%N -> b_cfg d = cfg -> b_alpha d = None ->
  (forall l, l \in ls -> \rank (mid (winput y 1 (cut X w.+1 l))) = w) ->
  exists rs, [/\ fit_loop np x y 0 (gr rk) kw0 1 X t w.+1 2 rk None ls d = Some (Ok rs), size rs = size ls &
    forall k r0, (k < size ls)%N -> good X t (nth [::] ls k) (nth r0 rs k)].
Proof.
move=> P2 Hw; elim: ls d => [|l ls IH] d Cd Ad Hl; first by exists [::].
rewrite /=; set Xw := winput _ _ _; set tw := wtime _.
have Wr : window_rank np (gr rk) Xw rk = 2%N by rewrite /window_rank /= P2 //; case/andP: Hw.
have Ep : prepare np (gr rk) kw0 Xw rk d = Bop cfg two None None (b_snap d) (b_time d) (b_op d).
  by rewrite /prepare Wr /with_rank Cd Ad.
rewrite /fit_window Ep.
have [|q [u [d1 [-> Eo Ec Ee]]]] := @bop_spins w Xw tw (b_snap d) (b_time d) (b_op d) Hw; first by apply: Hl; rewrite inE eqxx.
rewrite Eo ifF; last by apply/negbTE; rewrite -leqNgt; case/andP: Hw.
have [|||rs [-> Sz Hr]] := IH (after (gr rk) None d1 (bo_eigs u)).
- by rewrite /after /= /with_alpha.
- by rewrite /after /= /with_alpha.
- by move=> l' M; apply: Hl; rewrite inE M orbT.
eexists; split; [reflexivity | by rewrite /= Sz |].
case=> [|k] r0 L /=; last exact: Hr.
split=> // c; rewrite /= Ee /pad; case: insubP => [i _ Ei|N]; first by rewrite mxE Ei.
by case: eqP => // Ecw; move: N; rewrite -leqNgt -Ecw ltnn.
Qed.

(** one level: fitted and clustered into two bands, the fast one has the eigenvalue i *)
Lemma level_case_gen rk T (X : 'M[K]_(2, T)) (t : 'rV[K]_T) w d s1 ls : picks2 rk -> (Model_Utils.Qltb (inject_Z BinNums.Z0) (Model_Utils.rank_val rk) -> is_odd rk = false) ->
  Model_Utils.Qltb (inject_Z #2) (Model_Utils.rank_val rk) = false -> (0 < w <= 2)%N -> (1 < T)%N -> (0 < size ls)%N ->
  fit_windows (y_fl y) no_wins #2 #T #T #(w.+1) d = (s1, Ok tt) -> all_windows s1 = Ok ls ->
  (forall l, l \in ls -> \rank (mid (winput y 1 (cut X w.+1 l))) = w) ->
  exists rs (cls : nat -> nat -> nat) c1, [/\ fit np x y 0 (new_costs K 2 rk false) kw0 1 X t #(w.+1) d = Some (c1, kw0, Ok tt),
    size rs = size ls, forall k r0, (k < size ls)%N -> good X t (nth [::] ls k) (nth r0 rs k),
    forall k a, (k < size ls)%N -> (a < 2)%N -> cls k a = (a.+1 == w) :> nat &
    cluster_omega y c1 true 2 (Some Absolute) = Ok (Costs (gr rk) s1 (Some (@Fitted K 2 w.+1 2 rs)) (Some (Bands 2 cls [:: 0; 1])))].
Proof.
move=> P2 Ev Le Hw T1 L0 Ew Ea Hl.
have [rs [E Sz Hr]] := @loop_spins rk T X t w ls (start_dmd kw0 rk None) P2 Hw erefl erefl Hl.
pose om := flat_omega (@Fitted K 2 w.+1 2 rs).
pose b := flatten [seq [seq (a.+1 == w) | a <- iota 0 2] | _ <- iota 0 (size ls)].
have Sb : size om = (size ls * 2)%N by rewrite /om /flat_omega size_blocks /= Sz.
have Eb : [seq abs_im z | z <- om] = [seq (v : bool)%:R | v <- b].
  rewrite /om /flat_omega /b !map_flatten -!map_comp /= Sz; congr flatten; apply/eq_in_map => k; rewrite mem_iota add0n => /andP[_ Lk] /=.
  have [r0 _] : exists r0 : wres K 2 w.+1, True by case: (rs) Sz Lk => [/= <- //|r0 ? _ _]; exists r0.
  have [_ _ _ P] := Hr k r0 Lk; rewrite /omega_at /= !(nth_map r0) ?Sz // !P.
  have Ai (v : bool) : abs_im (if v then 'i else 0 : K) = v%:R.
    by case: v; rewrite /abs_im ?Im_i ?normr1 // (Creal_ImP _ (@real0 _)) normr0.
  by rewrite !Ai.
have C2 := @cluster2 K om b _ Eb.
have Al : allocate np (c_cfg (new_costs K 2 rk false)) kw0 X = Ok (gr rk, kw0, 2%N).
  by rewrite /allocate /= Le; case: ifP => // /Ev ->; rewrite P2.
have F := @fit_ok K np x y 0 2 (new_costs K 2 rk false) kw0 1 T X t w.+1 d s1 (gr rk) kw0 2 None ls rk rs Ew Al erefl Ea erefl E.
exists rs, (fun k a => nth 0%N [seq (v : bool) : nat | v <- b] (k * 2 + a)%N); eexists; split.
- exact: F.
- by [].
- exact: Hr.
- move=> k a Lk La; rewrite (nth_map false) /b ?nth_blocks //.
  by rewrite size_blocks; apply: leq_trans (leq_mul Lk (leqnn 2)); rewrite mulSn addnC ltn_add2r.
rewrite /cluster_omega; cbn [negb c_fit c_cfg c_win f_pre]; rewrite -/om C2 //.
by rewrite Sb; case: (size ls) L0 => // n _; rewrite mulSn.
Qed.

Lemma level_case T (X : 'M[K]_(2, T)) (t : 'rV[K]_T) w d s1 ls : (0 < w <= 2)%N -> (1 < T)%N -> (0 < size ls)%N ->
  fit_windows (y_fl y) no_wins #2 #T #T #(w.+1) d = (s1, Ok tt) -> all_windows s1 = Ok ls ->
  (forall l, l \in ls -> \rank (mid (winput y 1 (cut X w.+1 l))) = w) ->
  exists rs (cls : nat -> nat -> nat) c1, [/\ fit np x y 0 (new_costs K 2 two false) kw0 1 X t #(w.+1) d = Some (c1, kw0, Ok tt),
    size rs = size ls, forall k r0, (k < size ls)%N -> good X t (nth [::] ls k) (nth r0 rs k),
    forall k a, (k < size ls)%N -> (a < 2)%N -> cls k a = (a.+1 == w) :> nat &
    cluster_omega y c1 true 2 (Some Absolute) = Ok (Costs g0 s1 (Some (@Fitted K 2 w.+1 2 rs)) (Some (Bands 2 cls [:: 0; 1])))].
Proof. exact: level_case_gen two_picks _ _. Qed.

(** windows of two and of three time steps with full rank *)
Lemma mid2 (D : 'M[K]_(2, 2)) : D 0 0 != D 0 1 -> \rank (mid (winput y 1 D)) = 1%N.
Proof.
move=> N; apply/eqP; rewrite eqn_leq rank_leq_col lt0n mxrank_eq0; apply: contraNneq N => /matrixP /(_ 0 0).
rewrite !mxE !kernE // mul0r mulr0 add0r => /eqP; rewrite !mulf_eq0 invr_eq0 !pnatr_eq0 /= orbF !big_ord_recl big_ord0 addr0.
have -> : lift ord0 (ord0 : 'I_1) = 1 :> 'I_2 by apply/val_inj.
by move/eqP=> E; apply/eqP; exact: (mean_eq E).
Qed.
Lemma mid3 (D : 'M[K]_(2, 3)) (p q : 'cV[K]_2) : (forall i, D i 1 = D i 0 + p i 0) -> (forall i, D i (inord 2) = D i 0 + q i 0) ->
  p 0 0 * q 1 0 != p 1 0 * q 0 0 -> \rank (mid (winput y 1 D)) = 2%N.
Proof.
move=> E1 E2 N.
have Mean i : wmean D i 0 = (D i 0 + (D i 0 + p i 0 + (D i 0 + q i 0))) / 3%:R.
  rewrite mxE !big_ord_recl big_ord0 addr0.
  have -> : lift ord0 (lift ord0 ord0) = inord 2 :> 'I_3 by apply/val_inj; rewrite /= inordK.
  have -> : lift ord0 ord0 = 1 :> 'I_3 by apply/val_inj.
  by rewrite E1 E2.
pose h : K := 2%:R^-1; pose k : K := 3%:R^-1.
have W i j : winput y 1 D i j = (D i j - wmean D i 0) * ((j : nat)%:R / 3%:R) by rewrite mxE kernE.
have M i j : mid (winput y 1 D) i j = h * (winput y 1 D i (lift ord_max j) + winput y 1 D i (lift ord0 j)).
  by rewrite mxE [X in _ * X]mxE [X in _ * (X + _)]mxE [X in _ * (_ + X)]mxE.
have M0 i : mid (winput y 1 D) i 0 = h * ((p i 0 + p i 0 - q i 0) / 3%:R * k).
  rewrite M !W /= mul0r mulr0 add0r mul1r; have -> : lift ord0 0 = 1 :> 'I_3 by apply/val_inj.
  by rewrite E1 Mean off1.
have M1 i : mid (winput y 1 D) i 1 = h * ((p i 0 + p i 0 - q i 0) / 3%:R * k + (q i 0 + q i 0 - p i 0) / 3%:R * (k + k)).
  rewrite M !W /= mul1r; have -> : lift ord_max 1 = 1 :> 'I_3 by apply/val_inj.
  have -> : lift ord0 1 = inord 2 :> 'I_3 by apply/val_inj; rewrite /= inordK.
  by rewrite E1 E2 Mean off1 off2 -[(bump 0 1)%:R]/((1 + 1)%:R) natrD mulrDl !mul1r.
apply: mxrank_unit; rewrite unitmxE unitfE det22 !M0 !M1.
have n6 : (1 + (1 + 1)) * (1 + 1) != 0 :> K by rewrite -(natrD _ 1 1) -(natrD _ 1 2) -natrM pnatr_eq0.
have nh : h * 3%:R^-1 * k != 0 by rewrite !mulf_neq0 // invr_neq0 // pnatr_eq0.
by rewrite cross; apply: mulf_neq0; [apply: mulf_neq0 | rewrite subr_eq0]; rewrite ?expf_neq0.
Qed.

(** the data: 4 s and 4 s ^ 2 at the times 0, 2, .. 8 *)
Let pw (i : 'I_2) (s : nat) : nat := if i == 0 then s else (s * s)%N.
Let X0 : 'M[K]_(2, 5) := \matrix_(i, s) (4 * pw i s)%:R.
Let t0 : 'rV[K]_5 := \row_s (2 * s)%:R.
Let ls1 := [:: [:: 0; 1]; [:: 1; 2]; [:: 2; 3]; [:: 3; 4]]%N.
Let ls2 := [:: [:: 0; 1; 2]; [:: 2; 3; 4]]%N.
Let mu (i : 'I_2) (k : nat) : nat := (2 * pw i k + 2 * pw i k.+1)%N.
(** the slow band of the first level *)
Let low (i : 'I_2) (s : nat) : nat :=
  nth 0%N (if i == 0 then [:: 2; 4; 8; 12; 14]%N else [:: 2; 6; 18; 38; 50]%N) s.
Lemma mean1 i k : (k < 4)%N -> wmean (cut X0 2 (nth [::] ls1 k)) i 0 = (mu i k)%:R.
Proof.
move=> L; rewrite mxE !big_ord_recl big_ord0 addr0 !mxE.
have -> : nth 0%N (nth [::] ls1 k) (ord0 : 'I_2) = k by case: k L => [|[|[|[|]]]].
have -> : nth 0%N (nth [::] ls1 k) (lift ord0 ord0 : 'I_2) = k.+1 by case: k L => [|[|[|[|]]]].
rewrite /cell; case: insubP => [a _ Ea|]; last by rewrite (leq_trans L).
case: insubP => [b _ Eb|]; last by rewrite ltnS L.
by rewrite !mxE Ea Eb; apply: half; rewrite /mu mulnDl -!mulnA ![(_ * 2)%N]mulnC !mulnA.
Qed.
Lemma slow_part (cls : nat -> nat -> nat) k (r : wres K 2 2) i a : (k < 4)%N -> cls k 0%N = 1%N ->
  good X0 t0 (nth [::] ls1 k) r -> window_band x true (Bands 2 cls [:: 0; 1]) k r 2 0 i a = (mu i k)%:R.
Proof.
move=> L C0 [Er Em _ _]; have B0 : band_sum x r (tmin (wr_time r)) 2 (fun c => cls k c == 0%N) i a = 0.
  apply: big1 => -[[|c] Hc] /=; first by rewrite C0.
  have -> : pad (row i (wr_modes r)) c.+1 = 0 by rewrite /pad insubF // Er.
  by rewrite !mul0r.
rewrite /window_band /= B0 /argmin_list /= lexx ler01 /= Em mean1 //.
by rewrite (Creal_ReP _ (real0 _)) add0r (Creal_ReP _ (realn _ _)).
Qed.
Lemma low_band (s1 : wins) (rs : seq (wres K 2 2)) (cls : nat -> nat -> nat) : all_windows s1 = Ok ls1 -> size rs = 4%N ->
  (forall k r0, (k < 4)%N -> good X0 t0 (nth [::] ls1 k) (nth r0 rs k)) -> (forall k a, (k < 4)%N -> (a < 2)%N -> cls k a = (a.+1 == 1%N) :> nat) ->
  exists lo hi, scale_separation x (Costs g0 s1 (Some (@Fitted K 2 2 2 rs)) (Some (Bands 2 cls [:: 0; 1]))) true = Ok (lo, hi) /\
    forall i (s : 'I_5), lo i s = Some (low i s)%:R.
Proof.
move=> Ea; case: rs => [|r0 [|r1 [|r2 [|r3 [|]]]]] // _ G Cl.
have V k r i a : (k < 4)%N -> r = nth r0 [:: r0; r1; r2; r3] k -> window_band x true (Bands 2 cls [:: 0; 1]) k r 2 0 i a = (mu i k)%:R.
  by move=> L ->; apply: slow_part => //; [rewrite Cl | exact: G].
rewrite /scale_separation /scale_reconstruction Ea; cbn [c_fit c_bands c_win bind f_w f_res f_pre].
set lb := labels_of _ _ _; have L0 : 0%N \in lb.
  rewrite mem_undup mem_sort; apply/flattenP; exists [seq cls 0%N c | c <- iota 0 2]; first by apply/mapP; exists 0%N.
  by apply/mapP; exists 1%N; rewrite // Cl.
have LA : all (fun j => leq j.+1 (ba_n (@Bands K 2 cls [:: 0; 1]))) lb.
  apply/allP => j; rewrite mem_undup mem_sort => /flattenP[l /mapP[k]]; rewrite mem_iota add0n => /andP[_ Lk] -> /mapP[a].
  by rewrite mem_iota add0n => /andP[_ La] -> /=; rewrite Cl //; case: (_ == _).
clearbody lb; rewrite LA; cbn [bind ba_n]; do 2 eexists; split; first reflexivity.
have Kn a : build_kern x 2 a = 1 by [].
move=> i s; rewrite (@avg4 K x 2 r0 r1 r2 r3 lb _ i (fun k => (mu i k)%:R)) //; last by move=> k a Lk; apply: V.
have [-> | ->] : i = 0 \/ i = 1 by case: i => -[|[|]] // ?; [left | right]; apply/val_inj.
  by case: s => -[|[|[|[|[|]]]]] //= ?; congr Some; exact: half.
by case: s => -[|[|[|[|[|]]]]] //= ?; congr Some; exact: half.
Qed.

Let L0 : 'M[K]_(2, 5) := \matrix_(i, s) (low i s)%:R.
Let o0 : mrcosts K 2 := MrCosts [:: #2; #3] [:: #1; #2] [:: two; two] (Some [:: false; false]) (Some [:: Some 2%N; Some 2%N]) false
  (Some Absolute) true kw0 None 0 None None None None.
Let s1 := (fit_windows (y_fl y) no_wins #2 #5 #5 #2 #1).1.
Let s2 := (fit_windows (y_fl y) no_wins #2 #5 #5 #3 #2).1.
Lemma win1 : fit_windows (y_fl y) no_wins #2 #5 #5 #2 #1 = (s1, Ok tt) /\ all_windows s1 = Ok ls1.
Proof. by split; vm_compute. Qed.
Lemma win2 : fit_windows (y_fl y) no_wins #2 #5 #5 #3 #2 = (s2, Ok tt) /\ all_windows s2 = Ok ls2.
Proof. by split; vm_compute. Qed.
Lemma rank1 l : l \in ls1 -> \rank (mid (winput y 1 (cut X0 2 l))) = 1%N.
Proof.
move=> M; apply: mid2; have [k L ->] : exists2 k, (k < 4)%N & l = [:: k; k.+1].
  by move: M; rewrite !inE => /or4P[] /eqP ->; [exists 0%N | exists 1%N | exists 2%N | exists 3%N].
rewrite !mxE /cell /=; case: insubP => [a _ Ea|]; last by rewrite (leq_trans L).
case: insubP => [b _ Eb|]; last by rewrite ltnS L.
by rewrite !mxE eqr_nat eqn_pmul2l // Ea Eb /pw /= neq_ltn ltnSn.
Qed.
Let pair (a b : nat) : 'cV[K]_2 := \col_i (if i == 0 then a else b)%:R.
Lemma rank2 l : l \in ls2 -> \rank (mid (winput y 1 (cut L0 3 l))) = 2%N.
Proof.
have lowE i (s : nat) : (s < 5)%N -> cell L0 i s = (low i s)%:R by move=> H; rewrite /cell insubT mxE.
have two_rows (i : 'I_2) : i = 0 \/ i = 1 by case: i => -[|[|]] // ?; [left | right]; apply/val_inj.
rewrite !inE => /orP[] /eqP ->.
  apply: (@mid3 (cut L0 3 [:: 0; 1; 2]%N) (pair 2 4) (pair 6 16)).
  - by move=> i; rewrite !mxE /= !lowE // -natrD; congr (_%:R); case: (two_rows i) => ->.
  - by move=> i; rewrite !mxE /= inordK //= !lowE // -natrD; congr (_%:R); case: (two_rows i) => ->.
  - by rewrite !mxE /= -!natrM eqr_nat.
apply: (@mid3 (cut L0 3 [:: 2; 3; 4]%N) (pair 4 20) (pair 6 32)).
- by move=> i; rewrite !mxE /= !lowE // -natrD; congr (_%:R); case: (two_rows i) => ->.
- by move=> i; rewrite !mxE /= inordK //= !lowE // -natrD; congr (_%:R); case: (two_rows i) => ->.
- by rewrite !mxE /= -!natrM eqr_nat.
Qed.

Lemma fit_case : exists rs1 rs2 (cls1 cls2 : nat -> nat -> nat) o1,
  let c1 := Costs g0 s1 (Some (@Fitted K 2 2 2 rs1)) (Some (Bands 2 cls1 [:: 0; 1])) in
  let c2 := Costs g0 s2 (Some (@Fitted K 2 3 2 rs2)) (Some (Bands 2 cls2 [:: 0; 1])) in
  [/\ mr_fit np x y 0 o0 1 X0 t0 = Some (o1, Ok tt), o1 = MrCosts (mr_windows o0) (mr_steps o0) (mr_ranks o0) (mr_global o0) (mr_ncomp o0) false
    (Some Absolute) true kw0 (Some 2%N) 5 (Some [:: c1; c2]) None None None,
    size rs1 = 4%N /\ size rs2 = 2%N,
    forall k r0, (k < 4)%N -> good X0 t0 (nth [::] ls1 k) (nth r0 rs1 k) &
    [/\ forall k r0, (k < 2)%N -> good L0 t0 (nth [::] ls2 k) (nth r0 rs2 k),
        forall k a, (k < 4)%N -> (a < 2)%N -> cls1 k a = (a.+1 == 1%N) :> nat &
        forall k a, (k < 2)%N -> (a < 2)%N -> cls2 k a = (a.+1 == 2%N) :> nat]].
Proof.
have [W1 A1] := win1; have [W2 A2] := win2.
have [//|//|//|rs1 [cls1 [u1 [F1 S1 G1 C1 K1]]]] := @level_case 5 X0 t0 1 #1 s1 ls1 _ _ _ W1 A1 rank1.
have [//|//|//|rs2 [cls2 [u2 [F2 S2 G2 C2 K2]]]] := @level_case 5 L0 t0 2 #2 s2 ls2 _ _ _ W2 A2 rank2.
have [lo [hi [Ss El]]] := low_band A1 S1 G1 C1.
exists rs1, rs2, cls1, cls2; eexists => c1 c2; split; [|reflexivity|by []|exact: G1|by split].
have EL : \matrix_(i, j) odflt 0 (lo i j) = L0 by apply/matrixP => i j; rewrite !mxE El.
have St1 : mr_loop np x y 0 1 t0 false true (Some Absolute) 2 [:: false; false] [:: (#2, #1, two); (#3, #2, two)] 0 (Some X0) kw0
    (Some [:: Some 2%N; Some 2%N]) [::] = mr_loop np x y 0 1 t0 false true (Some Absolute) 2 [:: false; false] [:: (#3, #2, two)] 1
    (Some L0) kw0 (Some [:: Some 2%N; Some 2%N]) [:: c1].
  rewrite -EL; apply: (@loop_step K np x y 0 2 1 5 5 t0 true (Some Absolute) 2 [:: false; false] #2 #1 two [:: (#3, #2, two)] 0 X0 kw0
    [:: Some 2%N; Some 2%N] [::] u1 c1 kw0 2 lo hi isT F1 isT erefl K1).
  by split=> // i j; rewrite El.
have St2 := @loop_step K np x y 0 2 1 5 5 t0 true (Some Absolute) 2 [:: false; false] #3 #2 two [::] 1 L0 kw0
    [:: Some 2%N; Some 2%N] [:: c1] u2 c2 kw0 2 lo hi isT F2 isT erefl K2 I.
rewrite /mr_fit; cbn [mr_sweep o0 andb].
set q := mr_loop _ _ _ _ _ _ _ _ _ _ _ _ _ _ _ _ _.
have -> : q = Some ([:: c1; c2], kw0, Some [:: Some 2%N; Some 2%N], Ok tt) by exact: (etrans St1 St2).
by [].
Qed.

Lemma centre1 (rs : seq (wres K 2 2)) : size rs = 4%N -> (forall k r0, (k < 4)%N -> good X0 t0 (nth [::] ls1 k) (nth r0 rs k)) ->
  [seq centre r | r <- rs] = [:: 1%:R; 3%:R; 5%:R; 7%:R] :> seq K.
Proof.
have cellE (s : nat) : (s < 5)%N -> cell t0 0 s = (2 * s)%:R by move=> H; rewrite /cell insubT mxE.
case: rs => [|r0 [|r1 [|r2 [|r3 [|]]]]] // _ G.
have E k m : (k < 4)%N -> (2 * k + 2 * k.+1 = m * 2)%N -> centre (nth r0 [:: r0; r1; r2; r3] k) = m%:R.
  move=> L Em; rewrite /centre; have [_ _ -> _] := G k r0 L; rewrite !big_ord_recl big_ord0 addr0 !mxE.
  have -> : nth 0%N (nth [::] ls1 k) (ord0 : 'I_2) = k by case: k L {Em} => [|[|[|[|]]]].
  have -> : nth 0%N (nth [::] ls1 k) (lift ord0 ord0 : 'I_2) = k.+1 by case: k L {Em} => [|[|[|[|]]]].
  by rewrite (cellE k) ?(cellE k.+1) //; [exact: half | exact: leq_trans L _].
by rewrite /= -(E 0%N 1%N) // -(E 1%N 3%N) // -(E 2%N 5%N) // -(E 3%N 7%N).
Qed.
Lemma centre2 (rs : seq (wres K 2 3)) : size rs = 2%N -> (forall k r0, (k < 2)%N -> good L0 t0 (nth [::] ls2 k) (nth r0 rs k)) ->
  [seq centre r | r <- rs] = [:: 2%:R; 6%:R] :> seq K.
Proof.
have cellE (s : nat) : (s < 5)%N -> cell t0 0 s = (2 * s)%:R by move=> H; rewrite /cell insubT mxE.
case: rs => [|r0 [|r1 [|]]] // _ G.
have E k m : (k < 2)%N -> (2 * (2 * k) + (2 * (2 * k).+1 + 2 * (2 * k).+2) = m * 3)%N -> centre (nth r0 [:: r0; r1] k) = m%:R.
  move=> L Em; rewrite /centre; have [_ _ -> _] := G k r0 L; rewrite !big_ord_recl big_ord0 addr0 !mxE.
  have -> : nth 0%N (nth [::] ls2 k) (ord0 : 'I_3) = (2 * k)%N by case: k L {Em} => [|[|]].
  have -> : nth 0%N (nth [::] ls2 k) (lift ord0 ord0 : 'I_3) = (2 * k).+1 by case: k L {Em} => [|[|]].
  have -> : nth 0%N (nth [::] ls2 k) (lift ord0 (lift ord0 ord0) : 'I_3) = (2 * k).+2 by case: k L {Em} => [|[|]].
  by rewrite !cellE; [exact: third | case: k L {Em} => [|[|]] ..].
by rewrite /= -(E 0%N 2%N) // -(E 1%N 6%N).
Qed.

(** The whole pipeline runs on these data: two levels, the second one with longer windows and steps; everything C58_levels,
    C58_telescope, C58_classes and C58_reconstruction ask for holds. *)
Example C58_case : exists o1 o2 r lev G R,
  [/\ mr_fit np x y 0 o0 1 X0 t0 = Some (o1, Ok tt), mr_levels o1 = Some lev, size lev = 2%N,
      global_cluster_omega y o1 (Some 2%N) None = (o2, Ok r) & global_scale_reconstruction x o2 = Ok G /\ mr_reconstruction x o2 = Ok R] /\
  [/\ rising t0, forall c0 d, (d < size lev)%N -> fast_everywhere (nth c0 lev d),
      forall c0 d, (0 < d < size lev)%N -> exists h, spaced h (centres (nth c0 lev 0)) (centres (nth c0 lev d)) &
      forall s d, (s < 5)%N -> (d < 2)%N -> covered 5 (nth 0%N [:: 2; 3]%N d) (nth 0%N [:: 1; 2]%N d) s] /\
  [/\ kmeans_ok (y_kmeans y), argsort_ok (y_argsort y), is_log (y_log10 y), exp_positive (x_exp x) & forall w, rounds (y_fl y) #5 w].
Proof.
have [rs1 [rs2 [cls1 [cls2 [o1 H]]]]] := fit_case; cbn zeta in H.
case: H => F Eo [S1 S2] G1 [G2 C1 C2].
set c1 := Costs g0 s1 _ _ in Eo; set c2 := Costs g0 s2 _ _ in Eo.
have [W1 A1] := win1; have [W2 A2] := win2.
have T1 := centre1 S1 G1; have T2 := centre2 S2 G2.
pose d1 := LevelDs [:: 1%:R; 3%:R; 5%:R; 7%:R] 2 (omega_at (@Fitted K 2 2 2 rs1)) cls1.
pose d2 := LevelDs [:: 2%:R; 6%:R] 2 (omega_at (@Fitted K 2 3 2 rs2)) cls2.
have D1 : to_ds c1 = Ok d1 by rewrite /to_ds /= T1.
have D2 : to_ds c2 = Ok d2 by rewrite /to_ds /= T2.
have O1 k : (k < 4)%N -> omega_at (@Fitted K 2 2 2 rs1) k 0 = 'i.
  move=> Lk; have [r0 _] : exists r0 : wres K 2 2, True by case: (rs1) S1 => // r ? _; exists r.
  by rewrite /omega_at (nth_map r0) ?S1 //; have [_ _ _ ->] := G1 k r0 Lk.
have O2 k : (k < 2)%N -> omega_at (@Fitted K 2 3 2 rs2) k 1 = 'i.
  move=> Lk; have [r0 _] : exists r0 : wres K 2 3, True by case: (rs2) S2 => // r ? _; exists r.
  by rewrite /omega_at (nth_map r0) ?S2 //; have [_ _ _ ->] := G2 k r0 Lk.
have [da [Ei Et Ec Elv [Sf Af]]] := table2 C1 C2 O1 O2.
have Ef : flat_values da = nseq (size (flat_values da)) 'i by apply/all_pred1P.
set N := size (flat_values da) in Sf Ef.
have Cl : cluster_values y 2 (transform_omega y (Some Absolute) (flat_values da)) = Ok ([:: 0; 1], nseq N 1%N).
  rewrite (@cluster2 K (flat_values da) (nseq N true)) //; first by rewrite map_nseq.
  by rewrite Ef !map_nseq /abs_im Im_i normr1.
pose o2 := mr_upd o1 (Some da) (Some 2%N) (Some ([:: 0; 1] : seq K, nseq N 1%N)).
have Ec2 : global_cluster_omega y o1 (Some 2%N) None = (o2, Ok ([:: 0; 1], nseq N 1%N)).
  rewrite /global_cluster_omega.
  have -> : mr_table o1 = Ok da by rewrite /mr_table Eo; cbn [mr_omega mr_levels all_ok]; rewrite D1 D2.
  have -> : mr_cluster y o1 da 2 None = Ok ([:: 0; 1], nseq N 1%N) by rewrite /mr_cluster Eo; exact: Cl.
  by [].
have Sn : size (nseq N 1%N) = size (positions da) by rewrite size_nseq /N size_map.
have [cl Ecl Scl] : exists2 cl, deterp da (nseq N 1%N) [:: d1; d2] = Ok cl & size cl = 2%N.
  have Inc : increasing (ds_times d1) by rewrite /increasing /d1 /= (ltr_nat K 1 3) (ltr_nat K 3 5) (ltr_nat K 5 7).
  by rewrite /deterp Sn eqxx Elv Et Inc; eexists.
case: cl Scl Ecl => [|cl1 [|cl2 [|]]] // _ Ecl.
have Rr : mr_ranks o2 = [:: two; two] by rewrite /o2 Eo.
have Hd : handed_classes [:: two; two] 2 2 = 2%N by [].
have [g1 B1] : exists g1, level_bands x [:: two; two] 2 2 c1 cl1 = Ok g1.
  rewrite /level_bands; cbn [c_fit c_win c1]; rewrite A1; cbn [bind f_pre f_res f_w]; rewrite Hd S1 /=; by eexists.
have [g2 B2] : exists g2, level_bands x [:: two; two] 2 2 c2 cl2 = Ok g2.
  rewrite /level_bands; cbn [c_fit c_win c2]; rewrite A2; cbn [bind f_pre f_res f_w]; rewrite Hd S2 /=; by eexists.
have [G HG] : exists G, global_scale_reconstruction x o2 = Ok G.
  rewrite /global_scale_reconstruction Rr /o2 Eo; cbn [mr_upd mr_ndec mr_nglobal mr_omega mr_bands mr_levels all_ok].
  rewrite D1 D2; cbn [bind]; rewrite Ecl; cbn [bind all_bands]; rewrite Ec /= B1 B2 /=; by eexists.
have [bg HB] : exists bg, get_background x o2 = Ok bg.
  rewrite /get_background /o2 Eo; cbn [mr_upd mr_levels last].
  rewrite /scale_reconstruction; cbn [c_fit c_bands c_win c2]; rewrite A2; cbn [bind f_pre f_res f_w ba_n]; rewrite S2.
  rewrite labels_lt; last by move=> k a Lk La; rewrite /= C2 //; case: (_ == _).
  by rewrite /=; eexists.
have [R HR] : exists R, mr_reconstruction x o2 = Ok R.
  rewrite /mr_reconstruction HG HB; cbn [bind]; rewrite /o2 Eo; cbn [mr_upd mr_ndec mr_nglobal]; by eexists.
exists o1, o2, ([:: 0; 1], nseq N 1%N), [:: c1; c2], G, R; split; [|split].
- by split=> //; rewrite Eo.
- split.
  + split=> [j|i j L]; rewrite !mxE ?realn // ltr_nat ltn_pmul2l //.
  + move=> c0 [|[|]] // _ f b [<-] [<-] k /= Lk; first by exists 0%N; rewrite // C1 // -S1.
    by exists 1%N; rewrite // C2 // -S2.
  + move=> c0 [|[|]] // _; exists 2%:R; rewrite /centres /= T1 T2; split=> /=.
    * by rewrite ltr0n.
    * by move=> [|[|[|]]] // _ /=; rewrite -natrB // ler_nat.
    * by move=> [|] // _ /=; rewrite -natrB // -natrD ler_nat.
    * by rewrite ler_nat.
    * by rewrite ler_nat.
  + by move=> [|[|[|[|[|]]]]] // [|[|]].
- split; [exact: near_cluster_ok | exact: idx_sort_ok | exact: y0_log | by move=> z _; exact: ltr01 | by left].
Qed.
(** the first level once more, with svd_rank=-1 *)
Example automatic_case : let rk := Model_Utils.RInt (Zneg xH) in exists c1 c2,
  fit np x y 0 (new_costs K 2 rk false) kw0 1 X0 t0 #2 #1 = Some (c1, kw0, Ok tt) /\ cluster_omega y c1 true 2 (Some Absolute) = Ok c2.
Proof.
move=> rk; have [W1 A1] := win1.
have P2 : picks2 rk.
  by move=> T Z T1; rewrite /rank_of /= -[RHS](minn_idPl T1).
have [//|//|//|//|//|rs1 [cls1 [u1 [F1 _ _ _ K1]]]] := @level_case_gen rk 5 X0 t0 1 #1 s1 ls1 P2 _ _ _ _ _ W1 A1 rank1.
by exists u1; eexists; split; [exact: F1 | exact: K1].
Qed.
End Case.
Print Assumptions C58_case.
