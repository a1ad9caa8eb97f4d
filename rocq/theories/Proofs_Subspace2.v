From Coq Require Import QArith.
From mathcomp Require Import all_ssreflect all_fingroup all_algebra.
From Verif Require Import Py LinAlg Model_Operator Spec_Operator Proofs_OpCore Proofs_Operator Proofs_Operator2 Proofs_Recovery Proofs_Krylov.
From Verif Require Import Model_Subspace Spec_Subspace Proofs_Subspace.
From Verif Require Model_Utils.
Set Implicit Arguments. Unset Strict Implicit. Unset Printing Implicit Defensive.
Import Order.TTheory GRing.Theory Num.Theory.
Local Open Scope ring_scope.

Section Proofs.
Variable C : numClosedFieldType.
Variables (np : numpy C) (mrank : forall n m, 'M[C]_(n, m) -> 'I_(minn n m).+1).

Lemma slice_mul n p k (T : 'M[C]_(n, p)) (Z : 'M[C]_(p, k)) r : slice_cols (T *m Z) r = T *m slice_cols Z r.
Proof. by rewrite !slice_colsE mulmxA. Qed.

Lemma reduced_r n m (X : 'M[C]_(n, m)) : sv_r (reducedsvd np mrank X) = mrank X :> nat.
Proof. by rewrite /reducedsvd /svd_trunc; case: (np_svd np X)=> [[U s] Vh]. Qed.
Lemma reduced_ge0 n m (X : 'M[C]_(n, m)) : svd_rank_ok np mrank X -> forall j, 0 <= sv_s (reducedsvd np mrank X) 0 j.
Proof.
case; rewrite /svd_ok /reducedsvd /svd_trunc; case: (np_svd np X)=> [[U s] Vh] /= HS _ j.
by rewrite !take_colsE; apply: (sr_ge0 _ HS); exact: leq_ord.
Qed.

(** everything that follows from a successful fit *)
Lemma sub_facts cfg n m (S : 'M[C]_(n, m.+4)) f : sub_fitted np mrank cfg S f ->
  let o := so_op (sf_out f) in let Q := so_Uq (sf_out f) in
  let W := unscale (sc_rescale cfg) (of_vecs o) in
  [/\ exact_svd (usubmx Q) (of_U o) (of_s o) (of_V o) /\ (forall j, 0 <= of_s o 0 j),
      of_Atilde o = adj (of_U o) *m dsubmx Q *m of_V o *m diag_mx (recip (of_s o)),
      of_Atilde o *m W = W *m diag_mx (of_eigs o) /\ (forall j, col j W != 0),
      of_modes o = dsubmx Q *m of_V o *m diag_mx (recip (of_s o)) *m W *m diag_mx (recip (of_eigs o)) &
      exists r, sub_rank (mrank (projected np mrank S)) n (sc_rank cfg) = Ok r /\
                existT (fun k => 'M[C]_(n + n, k)) _ Q = existT _ _ (slice_cols (sv_U (reducedsvd np mrank (projected np mrank S))) r)].
Proof.
case=> HR Hp HO HQ Hrs HE; have [r [e [v [Er [Ee Ef Ea]]]]] := fit_subspace_inv HR.
clear HR Ea; case: f Ef HQ HE=> out b /= Eo; rewrite {}Eo {b} /= => HQ HE.
have [Ah [HA _]] := sorted_spec Ee.
have [Ev Nz] := eig_sorted_eq Ee HA (HE _ HA).
have EX := reduced_exact HQ.
split=> //.
- by split=> //; exact: reduced_ge0.
- by rewrite ls_op.
- split; first exact: (ahat_eigen HA).
  by move=> j; apply: (unscale_col_neq0 HA).
- by rewrite /sub_modes !scale_colsE.
- by exists r.
Qed.

(** ** Any data *)
Lemma diag_swap k (d e : 'rV[C]_k) : diag_mx d *m diag_mx e = diag_mx e *m diag_mx d.
Proof. by rewrite !mulmx_diag; congr diag_mx; apply/rowP=> i; rewrite !mxE mulrC. Qed.

Theorem sub_eigen cfg n m (S : 'M[C]_(n, m.+4)) f : sub_fitted np mrank cfg S f ->
  let o := so_op (sf_out f) in let Q := so_Uq (sf_out f) in
  forall P, is_pinv (usubmx Q) P ->
  dsubmx Q *m P *m of_modes o = of_modes o *m diag_mx (of_eigs o) /\
  forall j, of_eigs o 0 j != 0 -> col j (of_modes o) != 0.
Proof.
move=> HF o Q P HP; have [[EX Hs] EA [EW NW] EM _] := sub_facts HF.
rewrite -/o -/Q in EX Hs EA EW NW EM.
have EP : P = of_V o *m diag_mx (recip (of_s o)) *m adj (of_U o) by apply: (pinv_unique HP); exact: exact_pinv.
rewrite EA in EW.
have H1 := exact_eigen EW.
have H2 : dsubmx Q *m P = full_op (dsubmx Q) (of_U o) (of_s o) (of_V o) by rewrite EP /full_op !mulmxA.
split; first by rewrite H2 EM mulmxA H1 -[LHS]mulmxA -[RHS]mulmxA diag_swap.
move=> j Hj; apply/eqP=> E; have := NW j.
have : adj (of_U o) *m of_modes o = unscale (sc_rescale cfg) (of_vecs o) *m (diag_mx (of_eigs o) *m diag_mx (recip (of_eigs o))).
  by rewrite EM !mulmxA EW.
move/(congr1 (col j)); rewrite colE -mulmxA -colE E mulmx0 => H0.
case/negP; apply/eqP; apply/colP=> i; have := congr1 (fun c : 'cV_ _ => c i 0) H0.
rewrite mulmx_diag [X in _ = X -> _]mxE mul_mx_diag !mxE mulfV // mulr1 => <- //.
Qed.

Lemma projectedE n m (S : 'M[C]_(n, m.+4)) : svd_rank_ok np mrank (past S) ->
  forall P, is_pinv (past S) P -> projected np mrank S = future S *m (P *m past S).
Proof.
move=> H P HP; have EX := reduced_exact H.
have Hs := reduced_ge0 H.
rewrite (pinv_unique HP (exact_pinv EX Hs)) /projected; case: EX=> E HU HV Hn.
rewrite [X in _ *m (_ *m X)]E -!mulmxA (mulmxA (adj (sv_U _))) HU mul1mx (mulmxA (diag_mx (recip _))).
by rewrite recip_diag // mul1mx.
Qed.

Theorem sub_basis cfg n m (S : 'M[C]_(n, m.+4)) f : sub_fitted np mrank cfg S f ->
  let Q := so_Uq (sf_out f) in let O := projected np mrank S in
  adj Q *m Q = 1%:M /\ (exists Z, Q = O *m Z) /\ (so_k (sf_out f) <= minn n (\rank O))%N.
Proof.
move=> HF Q O; have [_ _ _ _ [r [Er EQ]]] := sub_facts HF.
have [_ HP HO _ _ _] := HF.
have [E HU HV Hn] := reduced_exact HO; have Erk := HO.2.
rewrite /Q; move: (so_k _) (so_Uq _) EQ=> k q EQ {Q}.
have Ek := congr1 (@projT1 _ _) EQ; rewrite /= in Ek; subst k.
have {EQ} -> := Eqdep_dec.inj_pair2_eq_dec _ PeanoNat.Nat.eq_dec _ _ _ _ EQ.
have Er' : sv_r (reducedsvd np mrank O) = mrank O :> nat by exact: reduced_r.
rewrite slice_colsE adjM; split; [|split].
- by rewrite -mulmxA (mulmxA (adj (sv_U _))) HU mul1mx sel_mx_adj // geq_minr.
- exists (sv_V (reducedsvd np mrank O) *m diag_mx (recip (sv_s (reducedsvd np mrank O))) *m sel_mx C _ (minn r (sv_r (reducedsvd np mrank O)))).
  by rewrite [in RHS]mulmxA; congr (_ *m _); rewrite mulmxA (span_U (reduced_exact HO)).
- rewrite -Erk leq_min Er' geq_minr andbT; apply: leq_trans (geq_minl _ _) _.
  move: Er; rewrite /sub_rank; case: (sc_rank cfg)=> [[|p|p]|q']; try by case=> <-; exact: geq_minr.
    by case=> <-; apply: leq_trans (geq_minl _ _) _; exact: geq_minr.
  by case: ifP=> // _ [<-]; exact: geq_minr.
Qed.

(** ** Linear data *)
Lemma exact_VV n m r (X : 'M[C]_(n, m)) (U : 'M[C]_(n, r)) s V : exact_svd X U s V -> X *m (V *m adj V) = X.
Proof. by case=> -> _ HV _; rewrite -!mulmxA (mulmxA (adj V)) HV mul1mx. Qed.

Section Linear.
Variables (n m : nat) (B : 'M[C]_n) (S : 'M[C]_(n, m.+4)).
Hypothesis HL : linear_data B S.

Lemma shift_lin k : (k < 3)%N -> shifted k.+1 S = B *m shifted k S.
Proof.
move=> Hk; apply/matrixP=> i j; rewrite mxE.
have B1 : (k.+1 + j < m.+4)%N by rewrite addSn -addnS (leq_add Hk) //; have := ltn_ord j.
have B0 : (k + j < m.+4)%N by apply: leq_ltn_trans B1; rewrite leq_add2r.
have := @HL (inord (k + j)) (inord (k.+1 + j)); rewrite !inordK // addSn => /(_ erefl) H.
have := congr1 (fun c : 'cV_n => c i 0) H; rewrite !mxE => ->.
by apply: eq_bigr=> l _; rewrite !mxE.
Qed.
Lemma middleE : shifted 2 S = middle S.
Proof. by apply/matrixP=> i j; rewrite !mxE. Qed.
Lemma future_lin : future S = col_mx (middle S) (B *m middle S).
Proof. by rewrite -futureE (@shift_lin 2) // middleE. Qed.
Lemma future_past : future S = block_mx (B *m B) 0 0 (B *m B) *m past S.
Proof.
rewrite -futureE -pastE mul_block_col !mul0mx addr0 add0r -!mulmxA.
by rewrite -!(@shift_lin 0) // -!(@shift_lin 1) // -!(@shift_lin 2).
Qed.
Lemma projected_lin : svd_rank_ok np mrank (past S) -> projected np mrank S = future S.
Proof.
move=> H; by rewrite /projected future_past -!mulmxA (exact_VV (reduced_exact H)).
Qed.
Lemma rank_future : \rank (future S) = \rank (middle S).
Proof.
rewrite future_lin -[X in col_mx X _]mul1mx -mul_col_mx eqmxMfull //.
by apply/row_fullP; exists (row_mx 1%:M 0); rewrite mul_row_col mul0mx addr0 mul1mx.
Qed.

Section Fitted.
Variables (cfg : sub_cfg C) (f : sub_fit C n).
Hypothesis HF : sub_fitted np mrank cfg S f.
Let o := so_op (sf_out f).
Let Q := so_Uq (sf_out f).

(** the second half of the basis is the image of the first *)
Lemma half_lin : dsubmx Q = B *m usubmx Q.
Proof.
have [_ [[Z E] _]] := sub_basis HF; rewrite -/Q in E.
have EO := projected_lin (sub_past HF); rewrite EO future_lin in E.
by rewrite E mul_col_mx col_mxKd col_mxKu mulmxA.
Qed.
Lemma half_range : exists Z, usubmx Q = middle S *m Z.
Proof.
have [_ [[Z E] _]] := sub_basis HF; rewrite -/Q in E.
have EO := projected_lin (sub_past HF); rewrite EO future_lin in E.
by exists Z; rewrite E mul_col_mx col_mxKu.
Qed.
(** the reduced operator is the compression of the system to the span of the first half *)
Lemma atilde_lin : of_Atilde o = adj (of_U o) *m B *m of_U o.
Proof.
have [[EX _] EA _ _ _] := sub_facts HF; rewrite -/o -/Q in EX EA.
by rewrite EA half_lin -!mulmxA; congr (_ *m (_ *m _)); rewrite mulmxA (span_U EX).
Qed.

Hypothesis HK : keeps_all n (sc_rank cfg).
Lemma keeps_rank k r : keeps_all n (sc_rank cfg) -> sub_rank k n (sc_rank cfg) = Ok r -> r = minn k n.
Proof.
rewrite /keeps_all /sub_rank; case: (sc_rank cfg)=> [[|p|p]|q] //=; try by move=> _ [].
  case=> [/Zorder.Zle_not_lt []|H [<-]]; first by [].
  apply/minn_idPl; apply: leq_trans (geq_minr _ _) _.
  by apply/ssrnat.leP; move: H; rewrite -Znat.positive_nat_Z => /Znat.Nat2Z.inj_le.
move=> H; case: ifP=> // _ [] //.
Qed.
Lemma kept : so_k (sf_out f) = \rank (middle S) /\ exists Z, middle S = usubmx Q *m Z.
Proof.
have [_ _ _ _ [r [Er EQ]]] := sub_facts HF; have HO := sub_proj HF.
rewrite (keeps_rank HK Er) in EQ; have Erk := HO.2.
have EO := projected_lin (sub_past HF).
have Hrn : (mrank (projected np mrank S) <= n)%N.
  by rewrite Erk EO rank_future rank_leq_row.
rewrite (minn_idPl Hrn) in EQ.
have Er' : sv_r (reducedsvd np mrank (projected np mrank S)) = mrank (projected np mrank S) :> nat by exact: reduced_r.
split.
  have := congr1 (@projT1 _ _) EQ; rewrite /= Er' minnn Erk EO rank_future //.
have [E _ _ _] := reduced_exact HO.
rewrite /Q; move: (so_k _) (so_Uq _) EQ=> k q EQ.
have Ek := congr1 (@projT1 _ _) EQ; rewrite /= in Ek; subst k.
have {EQ} -> := Eqdep_dec.inj_pair2_eq_dec _ PeanoNat.Nat.eq_dec _ _ _ _ EQ.
rewrite slice_colsE; set d := reducedsvd _ _ _ in E *.
exists (adj (sel_mx C _ (minn (mrank (projected np mrank S)) (sv_r d))) *m diag_mx (sv_s d) *m adj (sv_V d)).
have -> : middle S = usubmx (projected np mrank S) by rewrite EO future_lin col_mxKu.
rewrite {1}E -!mul_usub_mx !mulmxA -(mulmxA _ (sel_mx _ _ _)) sel_all ?mulmx1 //.
by rewrite Er'.
Qed.

Hypothesis HI : exists c, col ord_max S = middle S *m c.

Lemma U_middle : of_U o *m adj (of_U o) *m middle S = middle S.
Proof.
have [[EX _] _ _ _ _] := sub_facts HF; rewrite -/o -/Q in EX.
have [_ [Z ->]] := kept; by rewrite mulmxA -(mulmxA _ (adj _)) (XU EX).
Qed.
Lemma image_middle : exists K, B *m middle S = middle S *m K.
Proof.
case: HI=> c Hc.
exists (\matrix_(i, j) if (j < m)%N then (i == j.+1 :> nat)%:R else c i 0); apply/matrixP=> a j.
have Hj : (j.+2 < m.+4)%N by have := ltn_ord j; rewrite ltnS => H; rewrite !ltnS leqW.
have Hj' : (j.+3 < m.+4)%N by have := ltn_ord j.
have H := @HL (inord j.+2) (inord j.+3).
have {}H : col (inord j.+3) S = B *m col (inord j.+2) S by apply: H; rewrite !inordK.
have -> : (B *m middle S) a j = (B *m col (inord j.+2) S) a 0.
  by rewrite !mxE; apply: eq_bigr=> l _; rewrite !mxE.
rewrite -H !mxE; have [Hm|Hm] := ltnP j m; last first.
  have -> : inord j.+3 = ord_max :> 'I_m.+4.
    by apply/val_inj; rewrite /= inordK //; congr _.+3; apply/eqP; rewrite eqn_leq Hm -ltnS ltn_ord.
  have := congr1 (fun c : 'cV_n => c a 0) Hc; rewrite !mxE => ->.
  by apply: eq_bigr=> l _; rewrite !mxE ltnNge Hm.
have Hm' : (j.+1 < m.+1)%N by [].
rewrite (bigD1 (Ordinal Hm')) //= big1 => [|l Hl]; rewrite !mxE Hm /=.
  by rewrite eqxx mulr1 addr0.
by case: eqP=> [e|_]; rewrite ?mulr0 //; case/eqP: Hl; apply/val_inj.
Qed.
Lemma U_half : of_U o *m adj (of_U o) *m dsubmx Q = dsubmx Q.
Proof.
have [Z E] := half_range; have [K EK] := image_middle.
have -> : dsubmx Q = middle S *m (K *m Z) by rewrite half_lin E mulmxA EK mulmxA.
by rewrite mulmxA U_middle.
Qed.

Lemma BU_sub : B *m of_U o = of_U o *m of_Atilde o.
Proof.
have [[EX _] EA _ _ _] := sub_facts HF; rewrite -/o -/Q in EX EA.
by rewrite EA; apply: (BU EX half_lin U_half).
Qed.
Lemma modes_lin : of_modes o = of_U o *m unscale (sc_rescale cfg) (of_vecs o) *m (diag_mx (of_eigs o) *m diag_mx (recip (of_eigs o))).
Proof.
have [[EX _] EA [EW _] EM _] := sub_facts HF; rewrite -/o -/Q in EX EA EW EM.
rewrite EM half_lin -(mulmxA B) -(mulmxA B) (span_U EX) BU_sub -(mulmxA _ (of_Atilde _)) EW.
by rewrite !mulmxA.
Qed.
Lemma eigen_lin : B *m of_modes o = of_modes o *m diag_mx (of_eigs o).
Proof.
have [_ _ [EW _] _ _] := sub_facts HF; rewrite -/o -/Q in EW.
rewrite modes_lin !mulmxA BU_sub -(mulmxA _ (of_Atilde _)) EW.
by rewrite -!mulmxA; congr (_ *m (_ *m (_ *m _))); exact: diag_swap.
Qed.
Lemma U_range : exists Z, of_U o = middle S *m Z.
Proof.
have [[EX _] _ _ _ _] := sub_facts HF; rewrite -/o -/Q in EX; have [Z E] := half_range.
exists (Z *m of_V o *m diag_mx (recip (of_s o))); rewrite !mulmxA -E.
by rewrite (span_U EX).
Qed.
Lemma rank_lin : of_r o = \rank (middle S).
Proof.
have [[EX _] _ _ _ _] := sub_facts HF; rewrite -/o -/Q in EX.
rewrite (exact_rank EX); have [Z1 E1] := half_range; have [_ [Z2 E2]] := kept.
by apply/eqP; rewrite eqn_leq {1}E1 mxrankM_maxl /= {1}E2 mxrankM_maxl.
Qed.

Theorem sub_linear :
  of_r o = \rank (middle S) /\
  forall j, of_eigs o 0 j != 0 ->
    let phi := col j (of_modes o) in
    [/\ phi != 0, B *m phi = of_eigs o 0 j *: phi & exists c, phi = middle S *m c].
Proof.
split=> [|j Hj phi]; first exact: rank_lin.
have EX := (sub_facts HF).
have [[EX' Hs] _ _ _ _] := EX; rewrite -/o -/Q in EX' Hs.
have [_ Hnz] := sub_eigen HF (exact_pinv EX' Hs).
split.
- exact: Hnz.
- have := congr1 (col j) eigen_lin; rewrite /phi !colE -!mulmxA => ->.
  rewrite -colE; apply/colP=> i; rewrite mxE (bigD1 j) //= big1 => [|l Hl].
    by rewrite !mxE (bigD1 j) //= big1 => [|l Hl]; rewrite !mxE ?eqxx ?mulr1n ?mulr1 ?addr0 ?(negbTE Hl) ?mulr0 // mulrC.
  by rewrite !mxE (negbTE Hl) mulr0n mulr0.
- have [Z E] := U_range; rewrite /phi modes_lin E -!mulmxA colE -!mulmxA; eexists; reflexivity.
Qed.

Theorem sub_complete : of_vecs o \in unitmx -> forall lam (x : 'cV[C]_n), x != 0 ->
  (exists c, x = middle S *m c) -> B *m x = lam *: x -> exists j, of_eigs o 0 j = lam.
Proof.
move=> Hu lam x Hx [c Hc] HB.
have [_ EA [EW _] _ _] := sub_facts HF; rewrite -/o -/Q in EA EW.
have HWu : unscale (sc_rescale cfg) (of_vecs o) \in unitmx.
  have [r [e [v [_ [Ee Ef _]]]]] := fit_subspace_inv (sub_run HF).
  have [Ah [HA _]] := sorted_spec Ee; move: Hu; rewrite /o; case: (f) Ef => out b /= -> /= Hu.
  exact: (unscale_unit HA (sub_rs HF)).
set W := unscale _ _ in EW HWu.
pose z := invmx W *m (adj (of_U o) *m x).
have Ex : of_U o *m (W *m z) = x by rewrite /z mulKVmx // Hc !mulmxA U_middle.
have Ez : diag_mx (of_eigs o) *m z = lam *: z.
  have H : of_U o *m (W *m (diag_mx (of_eigs o) *m z)) = of_U o *m (W *m (lam *: z)).
    rewrite (mulmxA W) -EW -mulmxA mulmxA -BU_sub -mulmxA Ex HB.
    by rewrite -!scalemxAr Ex.
  have [[EX' _] _ _ _ _] := sub_facts HF; rewrite -/o -/Q in EX'; case: EX'=> _ UU _ _.
  have := congr1 (mulmx (adj (of_U o))) H; rewrite !(mulmxA (adj _)) UU !mul1mx.
  by move/(congr1 (mulmx (invmx W))); rewrite !mulKmx.
clearbody z; have [j Hj] : exists j, z j 0 != 0.
  apply/existsP; rewrite -negb_forall; apply/negP=> /forallP H0.
  have Z0 : z = 0 by apply/colP=> j; rewrite [RHS]mxE; apply/eqP; exact: H0.
  by move: Hx; rewrite -Ex Z0 !mulmx0 eqxx.
exists j; have := congr1 (fun c : 'cV_ _ => c j 0) Ez; rewrite mul_diag_mx !mxE => H.
exact: (mulIf Hj).
Qed.

(** ** Reconstruction *)
Hypothesis Hu : of_vecs o \in unitmx.
Hypothesis Hnz : forall j, of_eigs o 0 j != 0.
Hypothesis H0 : exists c, col ord0 S = middle S *m c.

Lemma vecs_unit : unscale (sc_rescale cfg) (of_vecs o) \in unitmx.
Proof.
have [r [e [v [_ [Ee Ef _]]]]] := fit_subspace_inv (sub_run HF).
have [Ah [HA _]] := sorted_spec Ee; move: Hu; rewrite /o; case: (f) Ef => out b /= -> /= Hu'.
exact: (unscale_unit HA (sub_rs HF)).
Qed.
Lemma modes_basis : row_full (of_modes o) /\ forall c, exists d : 'cV_ _, middle S *m c = of_modes o *m d.
Proof.
have HWu := vecs_unit; have EM := modes_lin.
rewrite diag_recip // mulmx1 in EM.
have [[EX' _] _ _ _ _] := sub_facts HF; rewrite -/o -/Q in EX'; case: EX'=> _ UU _ _.
split.
  apply/row_fullP; exists (invmx (unscale (sc_rescale cfg) (of_vecs o)) *m adj (of_U o)).
  by rewrite EM -mulmxA (mulmxA (adj _)) UU mul1mx mulVmx.
move=> c; exists (invmx (unscale (sc_rescale cfg) (of_vecs o)) *m (adj (of_U o) *m (middle S *m c))).
by rewrite EM -(mulmxA (of_U o)) mulKVmx // !mulmxA U_middle.
Qed.
Lemma cols_middle k : exists c, col k S = middle S *m c.
Proof.
have [K EK] := image_middle; case: H0=> c0 Hc0.
case: k=> k; elim: k=> [|k IH] Hk.
  by exists c0; rewrite -Hc0; congr (col _ S); exact/val_inj.
have [c Hc] := IH (ltnW Hk); exists (K *m c); rewrite mulmxA -EK -mulmxA -Hc.
exact: HL.
Qed.

Theorem sub_recover : sc_opt cfg <> OptBool true ->
  (forall k, lstsq_ok np (of_modes o) (col k S)) -> power_ok np ->
  forall t0 dt N (ts : 'I_N -> rat) (i : 'I_N) (k : nat), dt != 0 -> ts i = t0 + k%:R * dt ->
  col i (reconstruction (of_modes o) (dynamics np (of_eigs o) (sf_b f) (sc_opt cfg) m.+4 t0 dt ts))
  = state B (col ord0 S) k.
Proof.
move=> Hopt HLs HP t0 dt N ts i k Hdt Ht.
have [r [e [v [_ [_ _ Ha]]]]] := fit_subspace_inv (sub_run HF).
have [HFu HC] := modes_basis; have HB := eigen_lin.
have [a [Hanc Hb]] : exists a : 'I_m.+4, anchor (sc_opt cfg) m.+4 = a%:Z /\ sf_b f = np_lstsq np (of_modes o) (col a S).
  move: Ha; rewrite /amplitudes; case: (sc_opt cfg) Hopt => [[]|z] // _.
    case E: (col_index _ _)=> [a|] // [<-]; exists a; split=> //; by rewrite -(col_index_anchor E).
  by case E: (col_index _ _)=> [a|] // [<-]; exists a; split=> //; rewrite -(col_index_anchor E).
have HCk (k' : 'I_m.+4) : exists d, col k' S = of_modes o *m d.
  by have [c ->] := cols_middle k'; have [d ->] := HC c; exists d.
have [c0 Hc0] := HCk ord0.
rewrite reconstruction_col (dyn_col _ HP Hdt Ht Hanc (or_introl Hnz)) Hc0; apply: coords_recover=> //; last by left.
by rewrite -Hc0 -(linear_state _ HL) Hb; apply: snap_range (HCk a) (HLs a).
Qed.

Theorem sub_recover_opt : sc_opt cfg = OptBool true ->
  (let P := opt_P (of_modes o) (of_eigs o) m.+4 in forall q, P \in unitmx -> solve_ok np P q) -> power_ok np ->
  forall t0 dt N (ts : 'I_N -> rat) (i : 'I_N) (k : nat), dt != 0 -> ts i = t0 + k%:R * dt ->
  col i (reconstruction (of_modes o) (dynamics np (of_eigs o) (sf_b f) (sc_opt cfg) m.+4 t0 dt ts))
  = state B (col ord0 S) k.
Proof.
move=> Hopt HSo HP t0 dt N ts i k Hdt Ht.
have [r [e [v [_ [_ _ Ha]]]]] := fit_subspace_inv (sub_run HF).
have [HFu HC] := modes_basis; have HB := eigen_lin.
have [c0 Hc0] : exists d, col ord0 S = of_modes o *m d.
  by have [c ->] := cols_middle ord0; have [d ->] := HC c; exists d.
have Hb : sf_b f = c0.
  move: Ha; rewrite /amplitudes Hopt; case: ifP=> // HPu [<-].
  rewrite -/o -(optimal_normal (b := c0)); last first.
    by move=> k'; rewrite (linear_state k' HL) Hc0 (modes_state _ _ HB).
  by rewrite -[LHS](mulKmx HPu) HSo // mulKmx.
have Hanc : anchor (sc_opt cfg) m.+4 = 0%N%:Z by rewrite Hopt.
rewrite reconstruction_col (dyn_col _ HP Hdt Ht Hanc (or_intror (leq0n k))) Hc0 Hb; apply: coords_recover=> //.
by right.
Qed.
End Fitted.

(** ** Enough snapshots *)
Lemma col_state k : (k < m.+4)%N -> col (inord k) S = mpow B k *m col ord0 S.
Proof. by move=> H; rewrite (linear_pow HL) inordK. Qed.
Lemma mpow_add j k : mpow B (j + k) = mpow B j *m mpow B k.
Proof. by elim: j=> [|j IH] /=; rewrite ?mul1mx // IH mulmxA. Qed.
Lemma enough_inv : (n <= m.+1)%N -> exists c, col ord_max S = middle S *m c.
Proof.
move=> Hn; have [c Hc] := krylov B (mpow B 2 *m col ord0 S) Hn; exists c.
have -> : col ord_max S = mpow B m.+1 *m (mpow B 2 *m col ord0 S).
  by rewrite mulmxA -mpow_add addn2 -col_state //; congr (col _ S); apply/val_inj; rewrite /= inordK.
rewrite Hc; apply/colP=> i; rewrite summxE mxE; apply: eq_bigr=> j _.
rewrite !mxE mulrC; congr (_ * _).
have -> : S i (inord j.+2) = (mpow B j.+2 *m col ord0 S) i 0.
  have Hj : (j.+2 < m.+4)%N by have := ltn_ord j; rewrite ltnS => H; rewrite !ltnS leqW.
  by rewrite -col_state // mxE.
by rewrite -[j.+2]addn2 mpow_add -mulmxA [RHS]mxE.
Qed.
Lemma unit_first : B \in unitmx -> (exists c, col ord_max S = middle S *m c) -> exists c, col ord0 S = middle S *m c.
Proof.
move=> Hu HI; have [K EK] := image_middle HI.
have H2 : col (inord 2) S = middle S *m delta_mx ord0 0.
  rewrite -colE; apply/colP=> i; rewrite !mxE //.
have Hr : (middle S)^T *m B^T = K^T *m (middle S)^T by rewrite -!trmx_mul EK.
have HE : ((middle S)^T :=: (middle S)^T *m B^T)%MS.
  have HB' : row_free B^T by rewrite row_free_unit unitmx_tr.
  apply/eqmx_sym/eqmxP; rewrite Hr submxMl /= -(geq_leqif (mxrank_leqif_sup (submxMl _ _))).
  by rewrite -Hr mxrankMfree.
have inv x : (exists c, B *m x = middle S *m c) -> exists c, x = middle S *m c.
  case=> c Hc; have : (x^T *m B^T <= (middle S)^T *m B^T)%MS.
    by rewrite -trmx_mul Hc trmx_mul -HE submxMl.
  rewrite submxMfree; last by rewrite row_free_unit unitmx_tr.
  by case/submxP=> D HD; exists D^T; apply: trmx_inj; rewrite trmx_mul trmxK.
apply: (inv _ _); apply: (inv _ _); rewrite mulmxA; exists (delta_mx ord0 0).
by rewrite -H2 col_state // /= mulmx1.
Qed.
End Linear.
End Proofs.
