(** * What VarProDMD's fit leaves behind *)
From Coq Require Import QArith.
From mathcomp Require Import all_ssreflect all_fingroup all_algebra.
From Verif Require Import Py LinAlg Model_Operator Spec_Operator Proofs_CDMD Proofs_EckartYoung Proofs_Subspace Proofs_LandoDeriv Proofs_Limit Model_VarPro Proofs_VarPro Proofs_VarProJac Spec_VarPro.
From Verif Require Model_Utils.
Set Implicit Arguments. Unset Strict Implicit. Unset Printing Implicit Defensive.
Import Order.TTheory GRing.Theory Num.Theory.
Local Open Scope ring_scope.

Section Fit.
Variables (C : numClosedFieldType) (np : numpy C) (x : vext C).
Local Notation ex := (v_exp x).

Lemma frob2_trmx a b (M : 'M[C]_(a, b)) : frob2 M^T = frob2 M.
Proof. by rewrite !frob2E exchange_big; apply: eq_bigr => i _; apply: eq_bigr => j _; rewrite mxE. Qed.
Lemma vexpE k l (t : 'rV[C]_k) (w : 'rV[C]_l) : vexp x t w = exponentials ex t w.
Proof. by []. Qed.
Lemma picked_rowsE q m (D : 'M[C]_(q, m)) s : picked_rows D s = (at_samples D s)^T.
Proof. by apply/matrixP => i j; rewrite !mxE. Qed.
Lemma picked_timeE m (t : 'rV[C]_m) s : picked_time t s = at_samples t s.
Proof. by apply/matrixP => i j; rewrite !mxE ord1. Qed.
Lemma at_samplesM q n m (A : 'M[C]_(q, n)) (D : 'M[C]_(n, m)) s : at_samples (A *m D) s = A *m at_samples D s.
Proof. by apply/matrixP => i j; rewrite !mxE; apply: eq_bigr => k _; rewrite !mxE. Qed.
Lemma at_samples_exp n l m (M : 'M[C]_(n, l)) w (t : 'rV[C]_m) s : at_samples (exp_sum ex M w t) s = exp_sum ex M w (at_samples t s).
Proof. by rewrite /exp_sum at_samplesM; congr (_ *m _); apply/matrixP => i j; rewrite !mxE. Qed.
Lemma exp_sumM n q l k (A : 'M[C]_(n, q)) (M : 'M[C]_(q, l)) w (t : 'rV[C]_k) : exp_sum ex (A *m M) w t = A *m exp_sum ex M w t.
Proof. by rewrite /exp_sum mulmxA. Qed.

Lemma norms_ge0 n l (M : 'M[C]_(n, l)) j : 0 <= col_norms M 0 j.
Proof. by rewrite mxE sqrtC_ge0 sumr_ge0 // => i _; rewrite exprn_ge0. Qed.
Lemma norms_eq0 n l (M : 'M[C]_(n, l)) j : col_norms M 0 j = 0 -> forall i, M i j = 0.
Proof.
rewrite mxE => /eqP; rewrite sqrtC_eq0 psumr_eq0 => [/allP H i|i _]; last by rewrite exprn_ge0.
by have := H i (mem_index_enum _); rewrite expf_eq0 /= normr_eq0 => /eqP.
Qed.
Lemma unscale n l (M : 'M[C]_(n, l)) : scale_cols (scale_cols M (recip (col_norms M))) (col_norms M) = M.
Proof.
apply/matrixP => i j; rewrite !mxE -/(col_norms M 0 j); have [H|N] := eqVneq (col_norms M 0 j) 0.
  by rewrite (norms_eq0 H) !mul0r.
by move: N; rewrite mxE => N; rewrite divfK.
Qed.
Lemma predictE n l k (M : 'M[C]_(n, l)) w b (t : 'rV[C]_k) : predict x M w b t = exp_sum ex (scale_cols M b) w t.
Proof.
apply/matrixP => i j; rewrite !mxE; apply: eq_bigr => a _; rewrite !mxE [_ * w 0 a]mulrC -!mulrA; congr (_ * _); exact: mulrC.
Qed.

(** ** The optimiser's answer *)
Hypothesis HS : forall m n (M : 'M[C]_(m, n)), svd_ok np M.
Hypothesis Hlast : forall q l (f : 'rV[C]_(l + l) -> 'rV[C]_(q + q)) J a pts ans, v_lsq x f J a = Ok (pts, ans) -> last a pts = ans.

Section Opt.
Variables (q m : nat) (D : 'M[C]_(q, m.+1)) (t : 'rV[C]_m.+1) (r : nat) (c : Q) (o : optimum C m.+1 q).
Hypothesis HO : optimise np x D t r c = Ok o.

Lemma opt_indices : indices x D c = Ok (op_sel o).
Proof. by move: HO; rewrite /optimise; case: (indices x D c) => [s|e] //=; case: (v_lsq _ _ _ _) => [a|e] //= [<-]. Qed.
Lemma opt_lstsq : is_lstsq (exponentials ex (at_samples t (op_sel o)) (op_omegas o)) (at_samples D (op_sel o))^T (op_B o).
Proof.
move: HO; rewrite /optimise; case: (indices x D c) => [s|e] //=; case E : (v_lsq _ _ _ _) => [[pts ans]|e] //= [<-] /=.
by rewrite (Hlast E) -picked_rowsE -picked_timeE; exact: eval_lstsq.
Qed.
Lemma opt_best Z : frob2 (at_samples D (op_sel o) - exp_sum ex (op_B o)^T (op_omegas o) (at_samples t (op_sel o))) <=
  frob2 (at_samples D (op_sel o) - exp_sum ex Z (op_omegas o) (at_samples t (op_sel o))).
Proof.
rewrite -frob2_trmx -[X in _ <= X]frob2_trmx !linearB /= /exp_sum !trmx_mul !trmxK; exact: lstsq_optimal opt_lstsq.
Qed.
Lemma opt_exact Z : row_full (exponentials ex (at_samples t (op_sel o)) (op_omegas o)) ->
  at_samples D (op_sel o) = exp_sum ex Z (op_omegas o) (at_samples t (op_sel o)) -> (op_B o)^T = Z.
Proof.
move=> RF E; have := opt_lstsq; rewrite E /exp_sum trmx_mul trmxK => H.
rewrite (resid_proj RF H) mulmxA left_invK // mul1mx; exact: trmxK.
Qed.
Lemma opt_fun : row_full (exponentials ex (at_samples t (op_sel o)) (op_omegas o)) ->
  fun2 (op_fun o) = frob2 (at_samples D (op_sel o) - exp_sum ex (op_B o)^T (op_omegas o) (at_samples t (op_sel o))).
Proof.
move: HO; rewrite /optimise; case: (indices x D c) => [s|e] //=; case E : (v_lsq _ _ _ _) => [[pts ans]|e] //= [<-] /=.
rewrite -picked_timeE => RF; rewrite (Hlast E) -frob2_trmx linearB /= /exp_sum trmx_mul !trmxK -picked_rowsE /fun2 /residual packK eval_rho //.
rewrite /frob2 pair_bigA /= (reindex _ (curry_mxvec_bij _ _)) /=; apply: eq_bigr => -[i j] _; by rewrite mxvecE.
Qed.
End Opt.

(** ** compute_varprodmd_any *)
Definition basis_ok n m (X : 'M[C]_(n, m)) rk (up : bool) p (M : 'M[C]_(n, p)) : Prop :=
  ~~ up \/ sv_U (compute_svd np X rk) *m adj (sv_U (compute_svd np X rk)) *m M = M.
Section Any.
Variables (n m : nat) (X : 'M[C]_(n, m.+1)) (t : 'rV[C]_m.+1) (rk : Model_Utils.rank_arg) (up : bool) (c : Q) (r : vres C n m.+1).
Hypothesis HA : compute_any np x X t rk up c = Ok r.

Lemma anyP : exists q (L : 'M[C]_(n, q)) (rr : nat) (o : optimum C m.+1 q),
  [/\ optimise np x (adj L *m X) t rr c = Ok o, r = finish L o, adj L *m L = 1%:M &
      forall p (M : 'M[C]_(n, p)), basis_ok X rk up M -> L *m adj L *m M = M].
Proof.
move: HA; rewrite /compute_any; have [UU VV XV UX S0] := compute_svd_facts rk (HS X); case: ifP => Eu.
  rewrite -UX; case E : (optimise _ _ _ _ _ _) => [o|e] //= [<-].
  exists _, (sv_U (compute_svd np X rk)), (sv_r (compute_svd np X rk)), o; split=> // p M; case=> [N|H]; last exact: H.
  by case/negP: N.
case E : (optimise _ _ _ _ _ _) => [o|e] //= [<-]; exists n, 1%:M, (sv_r (compute_svd np X rk)), o; rewrite adj1 !mul1mx; split=> // p M _.
exact: mul1mx.
Qed.
Local Notation F := (scale_cols (vr_modes r) (vr_b r)).
Lemma any_best (M : 'M[C]_(n, vr_l r)) : basis_ok X rk up M ->
  frob2 (at_samples X (vr_sel r) - exp_sum ex F (vr_eigs r) (at_samples t (vr_sel r))) <=
  frob2 (at_samples X (vr_sel r) - exp_sum ex M (vr_eigs r) (at_samples t (vr_sel r))).
Proof.
have [q [L [rr [o [EO Er LL Sp]]]]] := anyP; move: M; rewrite Er /finish /= => M HM; rewrite unscale.
rewrite (frob2_pyth (B := exp_sum ex (L *m _) _ _) _ LL); last by rewrite exp_sumM mulmxA -[L *m _ *m L]mulmxA LL mulmx1.
rewrite (frob2_pyth (B := exp_sum ex M _ _) _ LL); last by rewrite -exp_sumM Sp.
rewrite ler_add2l -{1}(Sp _ M HM) -[L *m adj L *m M]mulmxA !exp_sumM -!mulmxBr !(frob2_isoL _ LL) ?mulmxBr -exp_sumM -at_samplesM.
exact: opt_best EO _.
Qed.
Lemma any_exact (M : 'M[C]_(n, vr_l r)) : row_full (exponentials ex (at_samples t (vr_sel r)) (vr_eigs r)) ->
  basis_ok X rk up X -> X = exp_sum ex M (vr_eigs r) t -> F = M.
Proof.
have [q [L [rr [o [EO Er LL Sp]]]]] := anyP; move: M; rewrite Er /finish /= => M RF HX EX; rewrite unscale.
have -> : (op_B o)^T = adj L *m M.
  apply: (opt_exact EO RF); by rewrite at_samplesM {1}EX at_samples_exp exp_sumM.
have /row_fullP [G EG] := RF; have [S ES] : exists S, exponentials ex (at_samples t (op_sel o)) (op_omegas o) = S *m exponentials ex t (op_omegas o).
  exists (\matrix_(i, j) (tnth (in_tuple (op_sel o)) i == j)%:R); apply/matrixP => i j; rewrite !mxE.
  rewrite (bigD1 (tnth (in_tuple (op_sel o)) i)) //= big1 => [|k /negPf N]; rewrite !mxE ?eqxx ?mul1r ?addr0 //.
  by rewrite eq_sym N mul0r.
have E1 : (exponentials ex t (op_omegas o))^T *m (G *m S)^T = 1%:M by rewrite -trmx_mul -mulmxA -ES EG trmx1.
have -> : M = X *m (G *m S)^T by rewrite EX /exp_sum -mulmxA E1 mulmx1.
by rewrite mulmxA mulmxA Sp.
Qed.
Lemma any_fun : row_full (exponentials ex (at_samples t (vr_sel r)) (vr_eigs r)) -> basis_ok X rk up X ->
  vr_fun2 r = frob2 (at_samples X (vr_sel r) - exp_sum ex F (vr_eigs r) (at_samples t (vr_sel r))).
Proof.
have [q [L [rr [o [EO Er LL Sp]]]]] := anyP; rewrite Er /finish /= => RF HX; rewrite unscale (opt_fun EO RF).
by rewrite exp_sumM -{2}(Sp _ X HX) -mulmxA !at_samplesM -mulmxBr (frob2_isoL _ LL).
Qed.
Lemma any_norm j : 0 <= vr_b r 0 j /\ (vr_b r 0 j != 0 -> \sum_i `|vr_modes r i j| ^+ 2 = 1).
Proof.
have [q [L [rr [o [EO Er LL Sp]]]]] := anyP; move: j; rewrite Er /finish /=; move: (L *m _) => M j; split=> [|N]; first exact: norms_ge0.
have E : col_norms M 0 j ^+ 2 = \sum_i `|M i j| ^+ 2 by rewrite mxE sqrtCK.
under eq_bigr => i _ do rewrite [scale_cols _ _ _ _]mxE [recip _ _ _]mxE normrM exprMn.
by rewrite -mulr_suml -E normrV ?unitfE // exprVn ger0_norm ?norms_ge0 // mulfV // expf_neq0.
Qed.
End Any.

(** ** Sorting *)
Lemma sort_perm l (key : option 'rV[C]_l) : exists p : 'S_l, forall j, sort_idx x key j = p j.
Proof.
have inj : injective (sort_idx x key) by rewrite /sort_idx; case: key => [v|] // i j /perm_inj /rev_ord_inj.
by exists (perm inj) => j; rewrite permE.
Qed.
Lemma exp_sum_perm n l k (M : 'M[C]_(n, l)) w (t : 'rV[C]_k) (p : 'S_l) : exp_sum ex (col_perm p M) (col_perm p w) t = exp_sum ex M w t.
Proof.
apply/matrixP => i j; rewrite !mxE [RHS](reindex_inj (@perm_inj _ p)); apply: eq_bigr => a _; by rewrite !mxE.
Qed.
Lemma unperm n l (M : 'M[C]_(n, l)) (p : 'S_l) : col_perm p (col_perm p^-1%g M) = M.
Proof. by apply/matrixP => i j; rewrite !mxE permK. Qed.
Lemma fitP n (d d' : varpro C n) m (X : 'M[C]_(n, m.+1)) (t : 'rV[C]_m.+1) : fit np x d X t = (d', Ok tt) ->
  exists r key (p : 'S_(vr_l r)), [/\ compute_any np x X t (vd_rank d) (~~ vd_exact d) (vd_comp d) = Ok r,
    sort_key (lazy_sort (vd_sort d)) (vr_eigs r) = Ok key, forall j, p j = sort_idx x key j &
    d' = VarPro (vd_rank d) (vd_exact d) (lazy_sort (vd_sort d)) (vd_comp d) (Some (VOp (col_perm p (vr_modes r)) (col_perm p (vr_eigs r))))
           (Some (VFit (col_perm p (vr_b r)) (vr_fun2 r) (vr_jac0 r) (vr_sel r) t)) (vd_px d)].
Proof.
rewrite /fit; case E : (compute_any _ _ _ _ _ _ _) => [r|e] //; case Ek : (sort_key _ _) => [key|e] // [<-].
have [p Hp] := sort_perm key; exists r, key, p; split=> //; congr VarPro.
  by congr (Some (VOp _ _)); [apply/matrixP => i j|apply/rowP => j]; rewrite !mxE Hp.
by have -> : \row_j vr_b r 0 (sort_idx x key j) = col_perm p (vr_b r) by apply/rowP => j; rewrite !mxE Hp.
Qed.
Lemma forecastP n (d d' : varpro C n) m (t : 'rV[C]_m.+1) r (p : 'S_(vr_l r)) so : 
  d' = VarPro (vd_rank d) (vd_exact d) so (vd_comp d) (Some (VOp (col_perm p (vr_modes r)) (col_perm p (vr_eigs r))))
           (Some (VFit (col_perm p (vr_b r)) (vr_fun2 r) (vr_jac0 r) (vr_sel r) t)) (vd_px d) ->
  forall k (u : 'rV[C]_k), forecast x d' u = Ok (exp_sum ex (scale_cols (vr_modes r) (vr_b r)) (vr_eigs r) u).
Proof.
move=> -> k u; rewrite /forecast /=; case: eqP => // e; rewrite castmx_id predictE; congr Ok.
rewrite -[RHS](exp_sum_perm _ _ _ p); congr (exp_sum _ _ _ _); by apply/matrixP => i j; rewrite !mxE.
Qed.

Lemma full_perm k l (t : 'rV[C]_k) (w : 'rV[C]_l) (p : 'S_l) : row_full (exponentials ex t (col_perm p w)) -> row_full (exponentials ex t w).
Proof.
have -> : exponentials ex t w = col_perm p^-1%g (exponentials ex t (col_perm p w)) by apply/matrixP => i j; rewrite !mxE permKV.
move=> /row_fullP [G EG]; rewrite col_permE; apply/row_fullP; exists (perm_mx p^-1%g *m G).
by rewrite mulmxA -[_ *m G *m _]mulmxA EG mulmx1 -perm_mxM mulgV perm_mx1.
Qed.
Lemma at_samplesB n m (A B : 'M[C]_(n, m)) s : at_samples (A - B) s = at_samples A s - at_samples B s.
Proof. by apply/matrixP => i j; rewrite !mxE. Qed.
Lemma sum_all m (f : 'I_m -> C) : \sum_(j < size (enum 'I_m)) f (tnth (in_tuple (enum 'I_m)) j) = \sum_j f j.
Proof. by rewrite -(big_tnth _ _ _ xpredT f) big_enum. Qed.
Lemma frob2_all n m (A : 'M[C]_(n, m)) : frob2 (at_samples A (enum 'I_m)) = frob2 A.
Proof. by rewrite !frob2E; apply: eq_bigr => i _; rewrite -[RHS]sum_all; apply: eq_bigr => j _; rewrite mxE. Qed.
Lemma full_all k l (t : 'rV[C]_k) (w : 'rV[C]_l) : row_full (exponentials ex t w) -> row_full (exponentials ex (at_samples t (enum 'I_k)) w).
Proof.
move=> /row_fullP [G EG]; apply/row_fullP; exists (at_samples G (enum 'I_k)); rewrite -EG; apply/matrixP => i j; rewrite !mxE.
by rewrite -[RHS]sum_all; apply: eq_bigr => a _; rewrite !mxE.
Qed.
Lemma any_all n m (X : 'M[C]_(n, m.+1)) (t : 'rV[C]_m.+1) rk (ext : bool) c r (P : Prop) :
  compute_any np x X t rk (~~ ext) c = Ok r -> Qle c 0 -> (0 < n)%N -> ext \/ (P /\ (0 < sv_r (compute_svd np X rk))%N) ->
  vr_sel r = enum 'I_m.+1 /\ exists2 q, (0 < q)%N & vr_jac0 r = (m.+1 * q)%N.
Proof.
move=> HA c0 n0 HX; have Ei q (D : 'M[C]_(q, m.+1)) : indices x D c = Ok (enum 'I_m.+1).
  rewrite /indices (_ : Model_Utils.Qltb 0 c = false) //; apply/negbTE/negP; rewrite /Model_Utils.Qltb.
  by move=> /negP; apply; apply/Qle_bool_iff.
have St q (D : 'M[C]_(q, m.+1)) rr o : optimise np x D t rr c = Ok o -> op_sel o = enum 'I_m.+1.
  by move=> /opt_indices; rewrite Ei => -[<-].
move: HA; rewrite /compute_any; case: ifP => Eu; case E : (optimise _ _ _ _ _ _) => [o|e] //= [<-] /=; rewrite (St _ _ _ _ E) size_enum_ord; split=> //.
  by exists (sv_r (compute_svd np X rk)) => //; case: HX => [e|[]//]; rewrite e in Eu.
by exists n.
Qed.
End Fit.
