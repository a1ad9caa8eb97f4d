(** * VarProDMD: the object across calls, and documented behaviour that fails (C49) *)
From Coq Require Import QArith.
From mathcomp Require Import all_ssreflect all_fingroup all_algebra.
From Verif Require Import Py LinAlg Ideal Model_Operator Spec_Operator Proofs_CDMD Proofs_EckartYoung Proofs_Subspace Proofs_LandoDeriv Proofs_Limit Model_VarPro Proofs_VarPro Proofs_VarProJac Spec_VarPro Proofs_VarProFit Properties_VarProFit.
From Verif Require Properties_BOPFit.
From Verif Require Model_Utils.
Set Implicit Arguments. Unset Strict Implicit. Unset Printing Implicit Defensive.
Import Order.TTheory GRing.Theory Num.Theory.
Local Open Scope ring_scope.

Section Object.
Variables (C : numClosedFieldType) (np : numpy C) (x : vext C).
Local Notation ex := (v_exp x).

(** before the first fit *)
Theorem C49_unfitted n rk e so c k (u : 'rV[C]_k) : let d := varpro_init C n rk e so c in
  [/\ forecast x d u = Err ValueError, ssr d = Err ValueError, selected_samples d = Err ValueError, shown d = (d, Ok None) &
      forall mask, set_mask d mask = (d, Err RuntimeError)].
Proof. by []. Qed.

Section Of.
Variables (n : nat) (d d' : varpro C n) (m : nat) (X : 'M[C]_(n, m.+1)) (t : 'rV[C]_m.+1).
Hypothesis HF : fit np x d X t = (d', Ok tt).

(** after a fit of an object whose modes were never read: the modes are all active, and the reconstruction is the forecast at
    the given times *)
Theorem C49_reconstruction : vd_px d = None -> exists p d1 (F : 'M[C]_(n, m.+1)), [/\ shown d' = (d1, Ok (Some p)), forall j, @vp_mask _ n p j,
  forecast x d' t = Ok F, forecast x d1 t = Ok F & reconstructed x d' = (d1, Ok (existT _ m.+1 F))].
Proof.
move=> N; have [r [key [p [HA HK Hp Ed]]]] := fitP HF; rewrite N in Ed.
set F := exp_sum ex (scale_cols (vr_modes r) (vr_b r)) (vr_eigs r) t.
exists (VPx (col_perm p (vr_modes r)) (col_perm p (vr_eigs r)) (col_perm p (vr_b r)) (fun=> true)).
eexists; exists F; have E : shown d' = (VarPro (vd_rank d') (vd_exact d') (vd_sort d') (vd_comp d') (vd_op d') (vd_fit d')
   (Some (VPx (col_perm p (vr_modes r)) (col_perm p (vr_eigs r)) (col_perm p (vr_b r)) (fun=> true))), 
   Ok (Some (VPx (col_perm p (vr_modes r)) (col_perm p (vr_eigs r)) (col_perm p (vr_b r)) (fun=> true)))).
  by rewrite /shown Ed /=; case: eqP => // e; rewrite castmx_id.
have Ff : forecast x d' t = Ok F.
  have := @forecastP C x n (VarPro (vd_rank d) (vd_exact d) (vd_sort d) (vd_comp d) (vd_op d) (vd_fit d) None) d' m t r p _ Ed m.+1 t; exact.
split=> //; first exact: E.
  by move: Ff; rewrite /forecast.
rewrite /reconstructed E Ed /=; congr (_, Ok (existT _ _ _)).
apply/matrixP => i j; rewrite !mxE [RHS](reindex_inj (@perm_inj _ p)); apply: eq_bigr => l _; rewrite !mxE.
by rewrite -mulrA [vr_eigs r 0 (p l) * _]mulrC.
Qed.
End Of.

Lemma masked_sumE n (p : vpx C n) k (u : 'rV[C]_k) : masked_sum x p u = \matrix_(i, j) \sum_(l < vp_l p)
  if @vp_mask _ n p l then vp_modes p i l * vp_amps p 0 l * v_exp x (vp_eigs p 0 l * u 0 j) else 0.
Proof. by apply/matrixP => i j; rewrite !mxE big_mkcond; apply: eq_bigr => l _; rewrite mulrA. Qed.

(** switching modes off: the reconstruction follows, the forecast does not *)
Theorem C49_mask n (d d1 : varpro C n) mask : set_mask d mask = (d1, Ok tt) ->
  (forall k (u : 'rV[C]_k), forecast x d1 u = forecast x d u) /\
  exists p, [/\ shown d1 = (d1, Ok (Some p)), size mask = vp_l p, forall j, @vp_mask _ n p j = nth false mask j &
    forall f, vd_fit d = Some f -> reconstructed x d1 = (d1, Ok (existT _ (vf_m f) (\matrix_(i, j) \sum_(l < vp_l p)
      if nth false mask l then vp_modes p i l * vp_amps p 0 l * v_exp x (vp_eigs p 0 l * vf_time f 0 j) else 0)))].
Proof.
rewrite /set_mask; case Eo : (vd_op d) => [o|] //; case Es : (shown d) => [d2 [[p|]|e]] //.
have [E2 Ef] : vd_op d2 = vd_op d /\ vd_fit d2 = vd_fit d.
  by move: Es; rewrite /shown Eo; case: (vd_px d) => [q|]; [case=> <-|case: (vd_fit d) => [f|] //; case: eqP => // e [<-] _].
case: eqP => // Hs [<-]; split=> [k u|]; first by rewrite /forecast /= E2 Ef.
exists (VPx (vp_modes p) (vp_eigs p) (vp_amps p) (fun j => nth false mask j)); split=> //; first by rewrite /shown /= E2 Eo.
by move=> f Hf; rewrite /reconstructed /shown /= E2 Eo Ef Hf masked_sumE.
Qed.

(** once modes, eigenvalues, amplitudes or the reconstruction have been read, a new fit does not change what is shown: only the
    forecast is new *)
Theorem C49_stale n (d d1 d2 : varpro C n) p m (X : 'M[C]_(n, m.+1)) t : shown d = (d1, Ok (Some p)) -> fit np x d1 X t = (d2, Ok tt) ->
  shown d2 = (d2, Ok (Some p)) /\ reconstructed x d2 = (d2, Ok (existT _ m.+1 (\matrix_(i, j) \sum_l
    if @vp_mask _ n p l then vp_modes p i l * vp_amps p 0 l * v_exp x (vp_eigs p 0 l * t 0 j) else 0))).
Proof.
move=> Es HF; have Ep : vd_px d1 = Some p.
  move: Es; rewrite /shown; case: (vd_op d) => [o|] //; case Eq : (vd_px d) => [q|]; first by case=> <- <-.
  by case: (vd_fit d) => [f|] //; case: eqP => // e [<- <-].
have [r [key [q [HA HK Hp Ed]]]] := fitP HF; rewrite Ep in Ed.
have E : shown d2 = (d2, Ok (Some p)) by rewrite Ed.
by split=> //; rewrite /reconstructed E -masked_sumE Ed.
Qed.

(** an unknown sorting string: fit raises, but the object counts as fitted and its accessors then fail in other ways *)
Theorem C49_bad_sort n (d : varpro C n) m (X : 'M[C]_(n, m.+1)) t r k (u : 'rV[C]_k) : vd_sort d = SgOther ->
  compute_any np x X t (vd_rank d) (~~ vd_exact d) (vd_comp d) = Ok r -> vd_fit d = None ->
  exists d', [/\ fit np x d X t = (d', Err ValueError), forecast x d' u = Err AttributeError, ssr d' = Err AttributeError & selected_samples d' = Ok None].
Proof. by move=> Es HA N; rewrite /fit HA Es /=; eexists; split=> //; rewrite /forecast /ssr /selected_samples /= N. Qed.

(** ** The starting point *)
(** an optimiser that returns its starting point *)
Definition stops : Prop := forall q l (f : 'rV[C]_(l + l) -> 'rV[C]_(q + q)) J a, v_lsq x f J a = Ok ([::], a).
Lemma square_unitary a b (U : 'M[C]_(a, b)) : b = a -> adj U *m U = 1%:M -> U *m adj U = 1%:M.
Proof. by move=> e; move: U; rewrite e => U /mulmx1C. Qed.

(** data with slopes Z = A Y for the means Y: the eigenvalues the optimiser starts from are reciprocals of eigenvalues of A *)
Theorem C49_initial_refuted n (d d' : varpro C n) m (X : 'M[C]_(n, m.+1)) t A o :
  (forall a b (M : 'M[C]_(a, b)), svd_ok np M) -> (forall r (M : 'M[C]_r), eig_ok np M) -> stops -> vd_exact d ->
  slopes X t = A *m means X -> A \in unitmx -> row_free (slopes X t) ->
  sv_r (compute_svd np (slopes X t) (Model_Utils.RInt (BinInt.Z.of_nat (sv_r (compute_svd np X (vd_rank d)))))) = n ->
  fit np x d X t = (d', Ok tt) -> vd_op d' = Some o ->
  forall j, vo_eigs o 0 j != 0 /\ exists2 v : 'cV[C]_n, v != 0 & A *m v = (vo_eigs o 0 j)^-1 *: v.
Proof.
move=> HS HE Hst Hex HZ UA RZ Hr HF; have [r [key [p [HA HK Hp ->]]]] := fitP HF => -[<-] j /=; rewrite mxE; move: (p j) => {}j.
have Ez : z_out X t = slopes X t by apply/matrixP => a b; rewrite !mxE.
have Ey : y_out X = means X by apply/matrixP => a b; rewrite !mxE mulrC addrC.
move: HA; rewrite /compute_any Hex /optimise /=; case: (indices _ _ _) => [s|e] //=; rewrite Hst /= => -[E].
move: j; rewrite -E /= packK /dmd_ev Ez Ey => {E HK} j.
set v := compute_svd _ _ _ in Hr j *; have [UU VV ZV UZ S0] := compute_svd_facts (Model_Utils.RInt (BinInt.Z.of_nat (sv_r (compute_svd np X (vd_rank d))))) (HS _ _ (slopes X t)).
rewrite -/v in UU VV ZV UZ S0; have UUt := square_unitary Hr UU.
have s0 i : sv_s v 0 i != 0.
  apply/eqP => si; have : row i (adj (sv_U v)) *m slopes X t = 0.
    by rewrite -row_mul UZ; apply/rowP => b; rewrite !mxE big1 // => a _; rewrite !mxE; case: eqP => [<-|]; rewrite ?si ?mulr0n ?mulr1n mul0r.
  move=> H; have : row i (adj (sv_U v)) = 0 by apply: (row_free_inj RZ); rewrite H mul0mx.
  move=> H0; have : row i (adj (sv_U v) *m sv_U v) 0 i = 0 by rewrite row_mul H0 mul0mx mxE.
  by rewrite UU !mxE eqxx => /eqP; rewrite oner_eq0.
have EM : adj (sv_U v) *m means X *m scale_cols (sv_V v) (recip (sv_s v)) = adj (sv_U v) *m invmx A *m sv_U v.
  have -> : means X = invmx A *m slopes X t by rewrite HZ mulKmx.
  by rewrite scale_colsE !mulmxA -[_ *m slopes X t *m sv_V v]mulmxA ZV !mulmxA -[_ *m diag_mx _ *m _]mulmxA diag_recip // mulmx1.
rewrite EM; have := HE _ (adj (sv_U v) *m invmx A *m sv_U v); rewrite /eig_ok; move: (np_eig _ _) => [lam W] [/= EW NW].
have Ev : adj (sv_U v) *m invmx A *m sv_U v *m col j W = lam 0 j *: col j W.
  by rewrite [col j W in LHS]colE mulmxA EW -colE; apply/colP => i; rewrite !mxE (bigD1 j) //= !mxE eqxx mulr1n big1 ?addr0 1?mulrC // => b /negPf Nb; rewrite !mxE Nb mulr0n mulr0.
have W0 : col j W != 0.
  by apply/eqP => H; have := NW j; rewrite big1 => [/esym/eqP|i _]; [rewrite oner_eq0|move/colP/(_ i): H; rewrite !mxE => ->; rewrite normr0 expr0n].
set y := sv_U v *m col j W; have y0 : y != 0.
  by apply: contraNneq W0 => H; rewrite -[col j W]mul1mx -UU -mulmxA -/y H mulmx0.
have Ay : invmx A *m y = lam 0 j *: y.
  by have := congr1 (mulmx (sv_U v)) Ev; rewrite -!mulmxA -/y [sv_U v *m (adj _ *m _)]mulmxA UUt mul1mx -scalemxAr -/y.
have l0 : lam 0 j != 0.
  by apply: contraNneq y0 => H; have := congr1 (mulmx A) Ay; rewrite mulKVmx // H scale0r mulmx0 => ->.
split=> //; exists y => //; have := congr1 (mulmx A) Ay; rewrite mulKVmx // -scalemxAr => H.
by rewrite [in RHS]H scalerA mulVf // scale1r.
Qed.
End Object.

Print Assumptions C49_unfitted.
Print Assumptions C49_reconstruction.
Print Assumptions C49_mask.
Print Assumptions C49_stale.
Print Assumptions C49_bad_sort.
Print Assumptions C49_initial_refuted.
