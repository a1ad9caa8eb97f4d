(** * Lemmas for C38: the HAVOK regression *)
From mathcomp Require Import all_ssreflect all_algebra.
From Verif Require Import Py LinAlg Model_Operator Spec_Operator Proofs_OpCore Proofs_Operator Proofs_Operator2 Proofs_Recovery Model_HavokFit.
From Verif Require Model_Havok Model_Utils.
Set Implicit Arguments. Unset Strict Implicit. Unset Printing Implicit Defensive.
Import Order.TTheory GRing.Theory Num.Theory.
Local Open Scope ring_scope.

Section P.
Variable C : numClosedFieldType.
Implicit Type np : numpy C.

(** a truncated SVD keeps orthonormal columns *)
Lemma take_orth n k (M : 'M[C]_(n, k)) (r : 'I_k.+1) : adj M *m M = 1%:M -> adj (take_cols M r) *m take_cols M r = 1%:M.
Proof.
move=> H; apply/matrixP=> i j.
have := congr1 (fun Z : 'M_k => Z (widen_ord (leq_ord r) i) (widen_ord (leq_ord r) j)) H.
rewrite !mxE => E.
have -> : (i == j)%:R = (widen_ord (leq_ord r) i == widen_ord (leq_ord r) j)%:R :> C by [].
by rewrite -E; apply: eq_bigr=> l _; rewrite !adjE !mxE.
Qed.
Lemma svd_V_orth np n m (X : 'M[C]_(n, m)) rk : svd_ok np X ->
  adj (sv_V (compute_svd np X rk)) *m sv_V (compute_svd np X rk) = 1%:M.
Proof.
rewrite /svd_ok /compute_svd /svd_trunc; case E: (np_svd np X) => [[U s] Vh] /= [_ _ HV _ _].
by apply: take_orth; rewrite adjK.
Qed.
Lemma svd_U_orth np n m (X : 'M[C]_(n, m)) rk : svd_ok np X ->
  adj (sv_U (compute_svd np X rk)) *m sv_U (compute_svd np X rk) = 1%:M.
Proof.
rewrite /svd_ok /compute_svd /svd_trunc; case E: (np_svd np X) => [[U s] Vh] /= [_ HU _ _ _].
exact: take_orth.
Qed.

(** orthonormal columns: every least-squares routine gives V^h Y *)
Lemma lstsq_orth m r p (V : 'M[C]_(m, r)) (Y : 'M[C]_(m, p)) b : adj V *m V = 1%:M -> is_lstsq V Y b -> b = adj V *m Y.
Proof. by move=> H; rewrite /is_lstsq H mul1mx. Qed.
Lemma pinv_orth m r (V : 'M[C]_(m, r)) P : adj V *m V = 1%:M -> is_pinv V P -> P = adj V.
Proof.
move=> H HP; apply: (pinv_unique HP); split; rewrite ?H ?mulmx1 ?mul1mx ?adj1 //.
- by rewrite -mulmxA H mulmx1.
- by rewrite adjM adjK.
Qed.
Lemma pinv_right m r (M : 'M[C]_(m, r)) P Q : is_pinv M P -> M *m Q = 1%:M -> M *m P = 1%:M.
Proof. by case=> H _ _ _ E; rewrite -[RHS]E -{2}H -!mulmxA E mulmx1. Qed.
Lemma lstsq_mx_ok np m r p (V : 'M[C]_(m, r)) (Y : 'M[C]_(m, p)) :
  (forall j, lstsq_ok np V (col j Y)) -> is_lstsq V Y (lstsq_mx np V Y).
Proof.
move=> H; apply/matrixP=> i j; have := congr1 (fun Z : 'cV_r => Z i 0) (H j).
rewrite !mxE => E; transitivity (\sum_k (adj V *m V) i k * np_lstsq np V (col j Y) k 0).
  by apply: eq_bigr=> k _; rewrite [lstsq_mx _ _ _ _ _]mxE.
by rewrite E; apply: eq_bigr=> k _; rewrite !mxE.
Qed.

(** the contract of the calls made by the DMD instance: everything is kept and the operator is diagonalisable *)
Record dmd_calls_ok np n m (d d' : dmd_cfg C) (X Y : 'M[C]_(n, m)) (f : dmd_fit C n m) : Prop := {
  dc_tlsq : d_tlsq d = 0; dc_fb : c_fb (d_op d) = false; dc_tik : c_tik (d_op d) = None;
  dc_rs : rescale_ok (c_rescale (d_op d'));
  dc_svd : svd_ok np X;
  dc_all : untruncated X (of_U (df_op f)) (of_s (df_op f)) (of_V (df_op f));
  dc_eig : forall Ah, ahat (c_rescale (d_op d')) (of_Atilde (df_op f)) = Ok Ah -> eig_ok np Ah;
  dc_diag : of_vecs (df_op f) \in unitmx;
  dc_nz : c_exact (d_op d) -> forall j, of_eigs (df_op f) 0 j != 0;
  dc_pinv : pinv_ok np (of_modes (df_op f)) }.

Lemma dmd_operator np n m d d' (X Y : 'M[C]_(n, m)) f : fit_xy np d X Y = (d', Ok f) -> dmd_calls_ok np d d' X Y f ->
  X *m adj X = 1%:M ->
  of_modes (df_op f) *m diag_mx (of_eigs (df_op f)) *m np_pinv np (of_modes (df_op f)) = Y *m adj X.
Proof.
move=> HF [Ht Hfb Htik Hrs Hsvd [HX Hs] HE HU Hnz HP] H1.
have [HO _ _ _] := fit_inv HF; move: HO; rewrite /compute_tlsq Ht eqxx /= => HO.
have [Hw _ Hm HA Hsv] := operator_facts HO Hrs HE.
have [UU VV _ _ _] := Hsv Hsvd.
have HA' := HA Hfb; rewrite Htik /= in Hm HA'.
have HWu := operator_unit HO Hrs HU.
set W := unscale _ _ in Hw Hm HWu; set L := of_eigs _ in Hw Hnz *; set Phi := of_modes _ in Hm HP *.
set U := of_U _ in HX UU HA' Hm; set V := of_V _ in HX VV HA' Hm; set s := of_s _ in HX Hs HA' Hm.
have UX : U *m adj U *m X = X by rewrite {1}HX !mulmxA -(mulmxA U) UU mulmx1 -HX.
have U1 : U *m adj U = 1%:M by rewrite -[LHS]mulmx1 -H1 mulmxA UX H1.
have VX : X *m V *m adj V = X by rewrite {1}HX -!mulmxA (mulmxA (adj V)) VV mul1mx !mulmxA -HX.
pose Si := diag_mx (recip s).
have YX : Y *m V *m Si *m adj U = Y *m adj X.
  have -> : adj X = V *m (adj V *m adj X) by have := congr1 (@adj C _ _) VX; rewrite !adjM adjK => {1}<-.
  have -> : adj V *m adj X = Si *m adj U.
    have /(congr1 (fun Z => Z *m adj X)) : adj V = Si *m adj U *m X.
      by rewrite HX !mulmxA -(mulmxA Si (adj U)) UU mulmx1 recip_diag // mul1mx.
    by rewrite -!mulmxA H1 mulmx1.
  by rewrite !mulmxA.
pose D := if c_exact (d_op d) then L else const_mx 1.
have Hd j : D 0 j != 0.
  by rewrite /D; case: ifP Hnz=> [_|_ _]; [exact | rewrite mxE oner_neq0].
have EW : Y *m V *m Si *m W = U *m W *m diag_mx L.
  by rewrite -[RHS]mulmxA -Hw HA' !mulmxA U1 mul1mx.
have HPhi : Phi = U *m W *m diag_mx D.
  by rewrite Hm /D; case: ifP=> _; rewrite ?EW // diag_const_mx mulmx1.
have AP : Y *m adj X *m Phi = Phi *m diag_mx L.
  rewrite HPhi -YX !mulmxA -(mulmxA _ (adj U) U) UU mulmx1 EW -!mulmxA; congr (_ *m (_ *m _)); exact: diagC.
rewrite -AP -[LHS]mulmxA (@pinv_right _ _ Phi _ (diag_mx (recip D) *m invmx W *m adj U)) ?mulmx1 //.
rewrite HPhi !mulmxA -(mulmxA _ (diag_mx D)) diag_recip // mulmx1 -(mulmxA U) mulmxV // mulmx1 //.
Qed.

(** ** What a successful fit stores *)
Lemma fit_step_inv np cfg st st' X t : hv_fit_step np cfg st X t = (st', Ok tt) ->
  exists H time dt Vd K,
  [/\ [/\ h_delays cfg != 0%N, h_lag cfg != 0%N & h_nc cfg != 0%N],
      Model_Havok.hankel (@real_part C) (h_delays cfg) (h_lag cfg) X = Ok H,
      [/\ time_of (hv_samples X) t = Ok time, dt_of time = Ok dt & e_dot (embed np cfg dt (mx_of H)) = Ok Vd],
      (h_nc cfg < e_r (embed np cfg dt (mx_of H)))%N /\ havok_operator np cfg (e_V (embed np cfg dt (mx_of H))) Vd = Ok K &
      let E := embed np cfg dt (mx_of H) in
      st' = HvState (Some (e_r E)) (Some (HvFit X H time (e_U E) (e_s E) (e_V E) K))].
Proof.
rewrite /hv_fit_step; case: ifP=> // /norP [H1 /norP [H2 H3]].
case EH: (Model_Havok.hankel _ _ _ _) => [H|] //.
case ET: (time_of _ _) => [time|] //; case ED: (dt_of _) => [dt|] //.
case EV: (e_dot _) => [Vd|] //; case: leqP=> // Hr; case EK: (havok_operator _ _ _ _) => [K|] // -[<-].
by exists H, time, dt, Vd, K; split.
Qed.
End P.
