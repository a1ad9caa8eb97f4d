(** * VarProDMD: fit, forecast and accessors (C49) *)
From Coq Require Import QArith.
From mathcomp Require Import all_ssreflect all_fingroup all_algebra.
From Verif Require Import Py LinAlg Ideal Model_Operator Spec_Operator Proofs_CDMD Proofs_EckartYoung Proofs_Subspace Proofs_LandoDeriv Proofs_Limit Model_VarPro Proofs_VarPro Proofs_VarProJac Spec_VarPro Proofs_VarProFit.
From Verif Require Model_Utils.
Set Implicit Arguments. Unset Strict Implicit. Unset Printing Implicit Defensive.
Import Order.TTheory GRing.Theory Num.Theory.
Local Open Scope ring_scope.

Section Fit.
Variables (C : numClosedFieldType) (np : numpy C) (x : vext C).
Local Notation ex := (v_exp x).
Hypothesis HS : forall m n (M : 'M[C]_(m, n)), svd_ok np M.

(** an optimiser whose last evaluation of the residual is at the point it returns *)
Definition answers_last : Prop :=
  forall q l (f : 'rV[C]_(l + l) -> 'rV[C]_(q + q)) J a pts ans, v_lsq x f J a = Ok (pts, ans) -> last a pts = ans.

Lemma untr_basis n m r (X : 'M[C]_(n, m)) (U : 'M[C]_(n, r)) s V : adj U *m U = 1%:M -> untruncated X U s V -> U *m adj U *m X = X.
Proof. by move=> UU [-> _]; rewrite !mulmxA -[_ *m adj U *m U]mulmxA UU mulmx1. Qed.
Lemma basis_self n m (X : 'M[C]_(n, m)) rk (ext : bool) :
  ext \/ (let v := compute_svd np X rk in untruncated X (sv_U v) (sv_s v) (sv_V v)) -> basis_ok np X rk (~~ ext) X.
Proof.
case=> [->|H]; first by left.
by right; have [UU _ _ _ _] := compute_svd_facts rk (HS X); exact: untr_basis H.
Qed.

Section Of.
Variables (n : nat) (d d' : varpro C n) (m : nat) (X : 'M[C]_(n, m.+1)) (t : 'rV[C]_m.+1).
Hypothesis HF : fit np x d X t = (d', Ok tt).

(** the forecast is the sum of the modes, scaled by the amplitudes, times the exponentials of the eigenvalues; the
    amplitudes are not negative and a mode has norm 1 unless its amplitude is 0 *)
Theorem C49_model : exists o (b : 'rV[C]_(vo_l o)), [/\ vd_op d' = Some o,
  forall j, 0 <= b 0 j, forall j, b 0 j != 0 -> \sum_i `|vo_modes o i j| ^+ 2 = 1 &
  forall k (u : 'rV[C]_k), forecast x d' u = Ok (exp_sum ex (scale_cols (vo_modes o) b) (vo_eigs o) u)].
Proof.
have [r [key [p [HA HK Hp Ed]]]] := fitP HF; exists (VOp (col_perm p (vr_modes r)) (col_perm p (vr_eigs r))), (col_perm p (vr_b r)).
split=> [|j|j|k u].
- by rewrite Ed.
- by rewrite mxE; case: (any_norm HS HA (p j)).
- rewrite mxE => N; rewrite -(proj2 (any_norm HS HA (p j)) N); by apply: eq_bigr => i _; rewrite mxE.
rewrite (forecastP x Ed) -[in LHS](exp_sum_perm x _ _ _ p) /=; congr (Ok (exp_sum _ _ _ _)); by apply/matrixP => i j; rewrite !mxE.
Qed.

Section Last.
Hypothesis Hlast : answers_last.

(** the forecast at the selected samples is the best fit with the returned eigenvalues: among all modes when exact, among
    the modes in the span of the leading left singular vectors otherwise *)
Theorem C49_forecast : exists o s F, [/\ vd_op d' = Some o, selected_samples d' = Ok (Some [seq nat_of_ord i | i <- s]),
  forecast x d' (at_samples t s) = Ok F & forall M : 'M[C]_(n, vo_l o),
    vd_exact d \/ sv_U (compute_svd np X (vd_rank d)) *m adj (sv_U (compute_svd np X (vd_rank d))) *m M = M ->
    frob2 (at_samples X s - F) <= frob2 (at_samples X s - exp_sum ex M (vo_eigs o) (at_samples t s))].
Proof.
have [r [key [p [HA HK Hp Ed]]]] := fitP HF; exists (VOp (col_perm p (vr_modes r)) (col_perm p (vr_eigs r))), (vr_sel r).
exists (exp_sum ex (scale_cols (vr_modes r) (vr_b r)) (vr_eigs r) (at_samples t (vr_sel r))); split=> [|||M HM].
- by rewrite Ed.
- by rewrite Ed.
- exact: (forecastP x Ed).
rewrite -[M](unperm M p) /= exp_sum_perm; apply: (any_best HS Hlast HA); case: HM => [->|HM]; first by left.
by right; rewrite [M in LHS]/= col_permE mulmxA HM -col_permE.
Qed.

(** data that are such a sum, with the returned eigenvalues: the forecast continues them to all times *)
Theorem C49_recovery o s (M : 'M[C]_(n, vo_l o)) : vd_op d' = Some o -> selected_samples d' = Ok (Some [seq nat_of_ord i | i <- s]) ->
  row_full (exponentials ex (at_samples t s) (vo_eigs o)) ->
  vd_exact d \/ (let v := compute_svd np X (vd_rank d) in untruncated X (sv_U v) (sv_s v) (sv_V v)) ->
  X = exp_sum ex M (vo_eigs o) t -> forall k (u : 'rV[C]_k), forecast x d' u = Ok (exp_sum ex M (vo_eigs o) u).
Proof.
have [r [key [p [HA HK Hp Ed]]]] := fitP HF; move=> Eo Es; move: Eo Es M; rewrite Ed => -[<-] [/(inj_map (@ord_inj _)) <-] M /= RF HX EX k u.
have EX' : X = exp_sum ex (col_perm p^-1%g M) (vr_eigs r) t by rewrite {1}EX -{1}[M](unperm M p) exp_sum_perm.
rewrite (forecastP x (erefl _)) -{1}[M](unperm M p) exp_sum_perm; congr (Ok (exp_sum _ _ _ _)).
apply: (any_exact HS Hlast HA) EX'.
  exact: full_perm RF.
exact: basis_self HX.
Qed.

(** ssr without compression: the norm of the misfit of the forecast at the given times (its denominator is always 1) *)
Theorem C49_ssr o F : vd_op d' = Some o -> Qle (vd_comp d) 0 -> (0 < n)%N -> row_full (exponentials ex t (vo_eigs o)) ->
  vd_exact d \/ (let v := compute_svd np X (vd_rank d) in untruncated X (sv_U v) (sv_s v) (sv_V v) /\ (0 < sv_r v)%N) ->
  forecast x d' t = Ok F -> exists v, [/\ ssr d' = Ok v, 0 <= v & v ^+ 2 = frob2 (X - F)].
Proof.
have [r [key [p [HA HK Hp Ed]]]] := fitP HF; move=> Eo c0 n0; move: Eo; rewrite Ed => -[<-] /= /full_perm RF HX.
rewrite (forecastP x (erefl _)) => -[<-]; have [Es [q q0 Ej]] := any_all HA c0 n0 HX.
have RFs : row_full (exponentials ex (at_samples t (vr_sel r)) (vr_eigs r)) by rewrite Es; exact: full_all.
have Em : (maxn (m.+1 - vr_jac0 r - vr_l r) 1)%N = 1%N.
  by apply/maxn_idPr; rewrite Ej (_ : (m.+1 - _ - _ = 0)%N) //; apply/eqP; rewrite -subnDA subn_eq0; apply: leq_trans (leq_addr _ _); rewrite leq_pmulr.
rewrite /ssr /= Em sqrtC1 divr1; exists (sqrtC (vr_fun2 r)); have HB : basis_ok np X (vd_rank d) (~~ vd_exact d) X.
  by apply: basis_self; case: HX => [|[]]; [left|right].
have E := any_fun HS Hlast HA RFs HB; split=> //; first by rewrite sqrtC_ge0 E frob2_ge0.
by rewrite sqrtCK E -at_samples_exp Es -at_samplesB frob2_all.
Qed.
End Last.

(** the samples used: distinct and in range; all of them in order without compression; with compression 0 < c < 1 the
    first int(m (1 - c)) pivots, at least two *)
Theorem C49_selection : (forall a b (M : 'M[C]_(a, b)), uniq (v_qr x M)) -> exists s : seq nat,
  [/\ selected_samples d' = Ok (Some s), uniq s, forall i, i \in s -> (i < m.+1)%N,
      Qle (vd_comp d) 0 -> s = iota 0 m.+1 &
      Qlt 0 (vd_comp d) -> [/\ Qlt (vd_comp d) 1, (1 < size s)%N & (size s <= v_keep x m.+1 (vd_comp d))%N]].
Proof.
move=> Hu; have [r [key [p [HA HK Hp Ed]]]] := fitP HF; exists [seq nat_of_ord i | i <- vr_sel r].
have [q [L [rr [o [/opt_indices EI Er _ _]]]]] := anyP HS HA; move: (congr1 (@vr_sel C n m.+1) Er) => /= Es; rewrite -Es in EI.
have Q1 a b : reflect (Qlt a b) (Model_Utils.Qltb a b).
  apply: (iffP idP); rewrite /Model_Utils.Qltb; last by move=> H; apply/negP => /Qle_bool_iff; exact: Qlt_not_le.
  by move=> /negP H; apply: Qnot_le_lt => H'; apply: H; exact/Qle_bool_iff.
have Hin i : i \in [seq nat_of_ord j | j <- vr_sel r] -> (i < m.+1)%N by move=> /mapP [j _ ->].
rewrite Ed; case: (Q1 (Qmake BinNums.Z0 BinNums.xH) (vd_comp d)) => Hc.
  have [s [Es2 Hs Hk Hk2]] : exists s, [/\ vr_sel r = s, uniq s, (1 < size s)%N & (size s <= v_keep x m.+1 (vd_comp d))%N /\ Qlt (vd_comp d) 1].
    move: EI; rewrite /indices /select_best; case: (Q1 (Qmake BinNums.Z0 BinNums.xH) (vd_comp d)) => //= _; case: (Q1 (vd_comp d) (Qmake (BinNums.Zpos BinNums.xH) BinNums.xH)) => //= H1.
    case: ifP => // /negbT; rewrite -ltnNge => Hs [<-]; eexists; split=> //; first by rewrite take_uniq.
    by split=> //; rewrite size_take; case: ltnP.
  split=> //; first by rewrite map_inj_uniq ?Es2 //; exact: ord_inj.
    by move=> /Qlt_not_le.
  by rewrite size_map Es2; split=> //; case: Hk2.
have Ea : vr_sel r = enum 'I_m.+1.
  by move: EI; rewrite /indices; case: (Q1 (Qmake BinNums.Z0 BinNums.xH) (vd_comp d)) => //= _ [].
split=> //; first by rewrite map_inj_uniq ?Ea ?enum_uniq //; exact: ord_inj.
by move=> _; rewrite Ea val_enum_ord.
Qed.

(** sorting: one permutation of what the optimiser gave; eigenvalues, modes and amplitudes stay together and the forecast is
    the one without sorting *)
Theorem C49_sorting : exists d0, fit np x (VarPro (vd_rank d) (vd_exact d) SgFalse (vd_comp d) (vd_op d) (vd_fit d) (vd_px d)) X t = (d0, Ok tt) /\
  (forall k (u : 'rV[C]_k), forecast x d' u = forecast x d0 u) /\
  exists o0 o f0 f (p : 'I_(vo_l o) -> 'I_(vo_l o0)), [/\ vd_op d0 = Some o0, vd_op d' = Some o, vd_fit d0 = Some f0, vd_fit d' = Some f &
    bijective p /\ forall j, [/\ vo_eigs o 0 j = vo_eigs o0 0 (p j), col j (vo_modes o) = col (p j) (vo_modes o0) &
      forall (i : 'I_(vf_l f)) (i0 : 'I_(vf_l f0)), i = j :> nat -> i0 = p j :> nat -> vf_b f 0 i = vf_b f0 0 i0]].
Proof.
have [r [key [p [HA HK Hp Ed]]]] := fitP HF; rewrite {1}/fit /= HA /=; eexists; split; first by [].
split=> [k u|].
  rewrite (forecastP x Ed) /forecast /=; case: eqP => // e; rewrite castmx_id predictE; congr (Ok (exp_sum _ _ _ _)).
    by apply/matrixP => i j; rewrite !mxE.
  by apply/rowP => j; rewrite !mxE.
rewrite Ed; exists (VOp (\matrix_(i, j) vr_modes r i j) (\row_j vr_eigs r 0 j)), (VOp (col_perm p (vr_modes r)) (col_perm p (vr_eigs r))).
eexists _, _, (p : 'I_(vr_l r) -> 'I_(vr_l r)); split=> //=; split; first by exists p^-1%g; [exact: permK|exact: permKV].
move=> j; split; rewrite ?mxE //; first by apply/colP => i; rewrite !mxE.
by move=> i i0 /ord_inj -> /ord_inj ->; rewrite !mxE.
Qed.

(** ... in descending order of the documented quantity *)
Theorem C49_descending o : sorts (v_argsort x) -> vd_op d' = Some o ->
  match vd_sort d with
  | SgReal => descending (fun z => `|'Re z|) (vo_eigs o)
  | SgImag => descending (fun z => `|'Im z|) (vo_eigs o)
  | SgAbs => descending (fun z => `|z|) (vo_eigs o)
  | _ => True
  end.
Proof.
move=> Hso; have [r [key [p [HA HK Hp ->]]]] := fitP HF => -[<-] /=.
have D (f : C -> C) : (forall z, f z \is Num.real) -> key = Some (map_mx f (vr_eigs r)) -> descending f (col_perm p (vr_eigs r)).
  move=> Rf Ek i j ij; rewrite !mxE !Hp Ek /=; have := Hso _ (map_mx f (vr_eigs r)) (rev_ord j) (rev_ord i).
  by rewrite !mxE; apply=> [k|]; rewrite ?mxE //= leq_sub2l.
by move: HK; case: (vd_sort d) => //= -[/esym E]; apply: D E => z; rewrite normr_real.
Qed.
(** with 'auto' or True: by the real part, the imaginary part or the modulus, whichever has the largest variance, with its sign *)
Theorem C49_auto o : sorts (v_argsort x) -> vd_op d' = Some o -> vd_sort d = SgAuto \/ vd_sort d = SgTrue ->
  let v f := variance (map_mx f (vo_eigs o)) in
  [\/ [/\ descending (fun z => 'Re z) (vo_eigs o), v (fun z => 'Im z) <= v (fun z => 'Re z) & v (fun z => `|z|) <= v (fun z => 'Re z)],
      [/\ descending (fun z => 'Im z) (vo_eigs o), v (fun z => `|z|) <= v (fun z => 'Im z) & ~~ (v (fun z => 'Im z) <= v (fun z => 'Re z)) || ~~ (v (fun z => `|z|) <= v (fun z => 'Re z))] |
      [/\ descending (fun z => `|z|) (vo_eigs o), ~~ (v (fun z => `|z|) <= v (fun z => 'Im z)) & ~~ (v (fun z => 'Im z) <= v (fun z => 'Re z)) || ~~ (v (fun z => `|z|) <= v (fun z => 'Re z))]].
Proof.
move=> Hso; have [r [key [p [HA HK Hp ->]]]] := fitP HF => -[<-] /= Hs.
have V (f : C -> C) : variance (map_mx f (col_perm p (vr_eigs r))) = variance (map_mx f (vr_eigs r)).
  rewrite /variance; congr (_ / _); rewrite [RHS](reindex_inj (@perm_inj _ p)); apply: eq_bigr => j _; rewrite !mxE; congr ((_ - _ / _) ^+ 2).
  by rewrite [RHS](reindex_inj (@perm_inj _ p)); apply: eq_bigr => i _; rewrite !mxE.
have D (f : C -> C) : (forall z, f z \is Num.real) -> key = Some (map_mx f (vr_eigs r)) -> descending f (col_perm p (vr_eigs r)).
  move=> Rf Ek i j ij; rewrite !mxE !Hp Ek /=; have := Hso _ (map_mx f (vr_eigs r)) (rev_ord j) (rev_ord i).
  by rewrite !mxE; apply=> [k|]; rewrite ?mxE //= leq_sub2l.
rewrite !V; have : sort_key SgAuto (vr_eigs r) = Ok key by case: Hs HK => ->.
rewrite /=; case: ifP => [/andP [A B] [/esym E]|/negbT]; first by apply: Or31; split=> //; apply: D E => z; exact: Creal_Re.
rewrite negb_and => H; case: ifP => [B [/esym E]|/negbT B [/esym E]]; [apply: Or32|apply: Or33]; split=> //; apply: D E => z;
  [exact: Creal_Im|exact: normr_real].
Qed.
End Of.

(** compression of 1 or more is refused; so few samples that at most one is left is a TypeError; nothing changes *)
Theorem C49_bad_compression n (d : varpro C n) m (X : 'M[C]_(n, m.+1)) (t : 'rV[C]_m.+1) :
  (Qle 1 (vd_comp d) -> fit np x d X t = (d, Err ValueError)) /\
  (Qlt 0 (vd_comp d) -> Qlt (vd_comp d) 1 -> (v_keep x m.+1 (vd_comp d) <= 1)%N -> fit np x d X t = (d, Err TypeError)).
Proof.
have Q1 a b : reflect (Qlt a b) (Model_Utils.Qltb a b).
  apply: (iffP idP); rewrite /Model_Utils.Qltb; last by move=> H; apply/negP => /Qle_bool_iff; exact: Qlt_not_le.
  by move=> /negP H; apply: Qnot_le_lt => H'; apply: H; exact/Qle_bool_iff.
have Ei e : (forall q (D : 'M[C]_(q, m.+1)), indices x D (vd_comp d) = Err e) -> fit np x d X t = (d, Err e).
  by move=> H; rewrite /fit /compute_any /optimise !H /=; case: ifP.
split=> [H|H0 H1 Hk]; apply: Ei => q D; rewrite /indices /select_best.
  case: (Q1 (Qmake BinNums.Z0 BinNums.xH) (vd_comp d)) => [_|]; last by case; apply: Qlt_le_trans H.
  by case: (Q1 (vd_comp d) (Qmake (BinNums.Zpos BinNums.xH) BinNums.xH)) => // /Qlt_not_le.
case: (Q1 (Qmake BinNums.Z0 BinNums.xH) (vd_comp d)) => // _; case: (Q1 (vd_comp d) (Qmake (BinNums.Zpos BinNums.xH) BinNums.xH)) => //= _.
by rewrite size_take_min (leq_trans (geq_minl _ _) Hk).
Qed.
End Fit.

Print Assumptions C49_model.
Print Assumptions C49_forecast.
Print Assumptions C49_recovery.
Print Assumptions C49_ssr.
Print Assumptions C49_selection.
Print Assumptions C49_sorting.
Print Assumptions C49_descending.
Print Assumptions C49_auto.
Print Assumptions C49_bad_compression.
