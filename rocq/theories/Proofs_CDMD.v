(** * Proofs about compressed and randomised DMD *)
From mathcomp Require Import all_ssreflect all_algebra.
From Verif Require Import Py LinAlg Model_Operator Spec_Operator Proofs_OpCore Proofs_Operator Proofs_Operator2 Proofs_Recovery.
From Verif Require Import Model_PrePostAlg Proofs_PrePostAlg Model_CDMD Spec_CDMD.
From Verif Require Model_Utils.
Set Implicit Arguments. Unset Strict Implicit. Unset Printing Implicit Defensive.
Import GRing.Theory Num.Theory.
Local Open Scope ring_scope.

Section Algebra.
Variable C : numClosedFieldType.

Lemma char_poly_conj r (A B P : 'M[C]_r) : P \in unitmx -> B *m P = P *m A -> char_poly A = char_poly B.
Proof.
move=> Hu H; pose Q := map_mx (@polyC C) P.
have E : char_poly_mx B *m Q = Q *m char_poly_mx A.
  rewrite /char_poly_mx mulmxBl mulmxBr -!map_mxM H; congr (_ - _).
  by rewrite mul_scalar_mx mul_mx_scalar.
have := congr1 determinant E; rewrite !det_mulmx mulrC => /mulfI H'; symmetry; apply: H'.
by rewrite /Q det_map_mx polyC_eq0 -unitfE -unitmxE.
Qed.

Lemma same_spectrum_conj r r1 (A : 'M[C]_r) (A1 : 'M[C]_r1) (R : 'M[C]_(r1, r)) L M :
  L *m R = 1%:M -> R *m M = 1%:M -> A1 *m R = R *m A -> same_spectrum A A1.
Proof.
move=> HL HM H.
have e : r = r1 by apply: anti_leq; rewrite (mulmx1_min HL) (mulmx1_min HM).
split=> //; subst r1; apply: (@char_poly_conj _ _ _ R) => //.
by have [_ ->] := mulmx1_unit HL.
Qed.

Section Core.
Variables (n m p r : nat) (X Y : 'M[C]_(n, m)) (K : 'M[C]_(p, n)).
Variables (U : 'M[C]_(p, r)) (s : 'rV[C]_r) (V : 'M[C]_(m, r)).
Hypothesis UU : adj U *m U = 1%:M.
Hypothesis VV : adj V *m V = 1%:M.
Hypothesis KX : K *m X = U *m diag_mx s *m adj V.
Hypothesis s0 : forall j, s 0 j != 0.
Let G := V *m diag_mx (recip s).
Let B := X *m G.
Let Z := Y *m G.
Let At := adj U *m (K *m Y) *m V *m diag_mx (recip s).

Lemma KB : K *m B = U.
Proof. by rewrite /B /G mulmxA KX (mulmxA _ V) -(mulmxA _ (adj V)) VV mulmx1 -mulmxA diag_recip // mulmx1. Qed.
Lemma LB : adj U *m K *m B = 1%:M.
Proof. by rewrite -mulmxA KB. Qed.
Lemma AtE : At = adj U *m K *m Z.
Proof. by rewrite /At /Z /G !mulmxA. Qed.

Section Lossless.
Variable D : 'M[C]_(n, p).
Hypothesis DK : D *m (K *m X) = X.

Lemma XVV : X *m V *m adj V = X.
Proof.
have E : X = D *m (U *m diag_mx s *m adj V) by rewrite -KX.
by rewrite {1}E -!mulmxA (mulmxA (adj V)) VV mul1mx [RHS]E !mulmxA.
Qed.
Lemma BsV : B *m diag_mx s *m adj V = X.
Proof. by rewrite /B /G !mulmxA -(mulmxA _ (diag_mx (recip s))) recip_diag // mulmx1 XVV. Qed.

(** the snapshots of the plain decomposition *)
Variables (r1 : nat) (U1 : 'M[C]_(n, r1)) (s1 : 'rV[C]_r1) (V1 : 'M[C]_(m, r1)).
Hypothesis UU1 : adj U1 *m U1 = 1%:M.
Hypothesis VV1 : adj V1 *m V1 = 1%:M.
Hypothesis X1 : X = U1 *m diag_mx s1 *m adj V1.
Hypothesis s10 : forall j, s1 0 j != 0.
Let A := Y *m V1 *m diag_mx (recip s1) *m adj U1.
Let R := adj U1 *m B.

Lemma VV1V : V1 *m adj V1 *m V = V.
Proof.
have E : adj V = diag_mx (recip s) *m (adj U *m (K *m X)).
  by rewrite KX !mulmxA -(mulmxA _ (adj U)) UU mulmx1 recip_diag // mul1mx.
have F : adj V *m V1 *m adj V1 = adj V.
  by rewrite E X1 -!mulmxA (mulmxA (adj V1) V1) VV1 mul1mx.
by apply: adj_inj; rewrite !adjM adjK mulmxA.
Qed.
Lemma AB : A *m B = Z.
Proof.
have UX : adj U1 *m X = diag_mx s1 *m adj V1 by rewrite X1 !mulmxA UU1 mul1mx.
rewrite /A /B /Z /G -!mulmxA (mulmxA (adj U1)) UX !mulmxA -(mulmxA _ _ (diag_mx s1)) recip_diag // mulmx1.
by congr (_ *m _); rewrite -!mulmxA (mulmxA V1) VV1V.
Qed.
Lemma U1R : U1 *m R = B.
Proof.
by rewrite /R /B {1}X1 !mulmxA -(mulmxA U1) UU1 mulmx1 -X1.
Qed.
Lemma RL : (adj U *m K *m U1) *m R = 1%:M.
Proof. by rewrite -mulmxA U1R LB. Qed.
Lemma RM : R *m (diag_mx s *m adj V *m (V1 *m diag_mx (recip s1))) = 1%:M.
Proof.
have -> : R *m (diag_mx s *m adj V *m (V1 *m diag_mx (recip s1))) =
    adj U1 *m (B *m diag_mx s *m adj V) *m (V1 *m diag_mx (recip s1)) by rewrite /R !mulmxA.
by rewrite BsV X1 !mulmxA UU1 mul1mx -(mulmxA (diag_mx s1)) VV1 mulmx1 diag_recip.
Qed.

(** the column space is invariant *)
Lemma Z_inv c : Y = X *m c -> Z = B *m At.
Proof.
move=> Yc; have E : Z = B *m (diag_mx s *m adj V *m c *m G).
  by rewrite /Z Yc -{1}BsV !mulmxA.
by rewrite E; congr (_ *m _); rewrite AtE E mulmxA LB mul1mx.
Qed.
Lemma sim_inv c : Y = X *m c -> same_spectrum At (adj U1 *m A *m U1).
Proof.
move=> Yc; apply: (same_spectrum_conj RL RM).
by rewrite -(mulmxA _ U1) U1R -mulmxA AB (Z_inv Yc) /R -mulmxA.
Qed.
Lemma eig_inv c q (W : 'M[C]_(r, q)) L : Y = X *m c -> At *m W = W *m L -> A *m (Z *m W) = Z *m W *m L.
Proof.
move=> Yc H; have -> : A *m (Z *m W) = A *m B *m (At *m W).
  by rewrite {1}(Z_inv Yc) -(mulmxA B) [RHS](esym (mulmxA _ _ _)).
by rewrite H AB mulmxA.
Qed.

(** isometric compressions *)
Hypothesis KK : adj K *m (K *m X) = X.
Lemma adjB_iso : adj U *m K = adj B.
Proof.
have -> : B = adj K *m U by rewrite -KB /B !mulmxA -(mulmxA (adj K)) KK.
by rewrite adjM adjK.
Qed.
Lemma BB : adj B *m B = 1%:M.
Proof. by rewrite -adjB_iso LB. Qed.
Lemma A_iso : A = Z *m adj B.
Proof.
have e : r = r1 by apply: anti_leq; rewrite (mulmx1_min RL) (mulmx1_min RM).
have RR : adj R *m R = 1%:M.
  by rewrite -BB -U1R adjM -mulmxA (mulmxA (adj U1)) UU1 mul1mx.
have RR' : R *m adj R = 1%:M by clear -e RR; subst r1; exact: mulmx1C.
have BBp : B *m adj B = U1 *m adj U1 by rewrite -U1R adjM mulmxA -(mulmxA U1) RR' mulmx1.
by rewrite -AB -(mulmxA A) BBp mulmxA /A -(mulmxA _ (adj U1) U1) UU1 mulmx1.
Qed.
Lemma At_iso : At = adj B *m A *m B.
Proof. by rewrite AtE adjB_iso -mulmxA AB. Qed.
Lemma sim_iso : same_spectrum At (adj U1 *m A *m U1).
Proof.
apply: (same_spectrum_conj RL RM).
rewrite -(mulmxA _ U1) U1R -mulmxA AB AtE adjB_iso /R.
have BBp : adj U1 *m B *m adj B = adj U1.
  have e : r = r1 by apply: anti_leq; rewrite (mulmx1_min RL) (mulmx1_min RM).
  have RR : adj R *m R = 1%:M by rewrite -BB -U1R adjM -mulmxA (mulmxA (adj U1)) UU1 mul1mx.
  have RR' : R *m adj R = 1%:M by clear -e RR; subst r1; exact: mulmx1C.
  by rewrite -/R -U1R adjM mulmxA RR' mul1mx.
by rewrite (mulmxA _ _ Z) BBp.
Qed.
Lemma eig_iso q (W : 'M[C]_(r, q)) L : At *m W = W *m L -> A *m (Z *m W) = Z *m W *m L.
Proof.
move=> H; have -> : A *m (Z *m W) = Z *m (At *m W).
  by rewrite A_iso AtE adjB_iso -(mulmxA (adj B) Z W) (mulmxA Z (adj B)).
by rewrite H mulmxA.
Qed.
End Lossless.
End Core.
End Algebra.

(** the results a user reads: reduced operator, eigenvalues, modes and amplitudes *)
Section Results.
Variable C : numClosedFieldType.
Definition results n := {r & ('M[C]_r * 'rV[C]_r * 'M[C]_(n, r) * 'cV[C]_r)%type}.
Definition compressed_result n p m (f : cd_fit C n p m) : results n :=
  existT _ (cd_r (cf_op f)) (cd_Atilde (cf_op f), cd_eigs (cf_op f), cd_modes (cf_op f), cf_b f).
Definition dmd_result n m (g : dmd_fit C n m) : results n :=
  existT _ (of_r (df_op g)) (of_Atilde (df_op g), of_eigs (df_op g), of_modes (df_op g), df_b g).
End Results.

Section Fit.
Variable C : numClosedFieldType.
Implicit Type np : numpy C.

Lemma cdmd_fit_inv np cfg n m c (d : draws C n m.+1) (S : 'M[C]_(n, m.+1)) p (f : cd_fit C n p m) (K : 'M[C]_(p, n)) :
  cdmd_fit np cfg c d S = Ok (existT _ p f) -> compression_mx d c = Ok (existT _ p K) ->
  fit_compressed np cfg S (K *m S) = Ok f.
Proof.
rewrite /cdmd_fit => H E; move: H; rewrite E /=.
case: (fit_compressed _ _ _ _)=> [f'|x] //= -[H]; congr Ok.
exact: (Eqdep_dec.inj_pair2_eq_dec _ PeanoNat.Nat.eq_dec _ _ _ _ H).
Qed.

Lemma compute_svdE np n m (X : 'M[C]_(n, m)) rk :
  compute_svd np X rk =
  let r := np_rank np (np_svd np X).1.2 n m rk in
  SvdOut (take_cols (np_svd np X).1.1 r) (take_cols (np_svd np X).1.2 r) (take_cols (adj (np_svd np X).2) r).
Proof. by rewrite /compute_svd /svd_trunc; case: (np_svd np X) => [[]]. Qed.

Lemma compute_svd_facts np n m (X : 'M[C]_(n, m)) rk : svd_ok np X -> let o := compute_svd np X rk in
  [/\ adj (sv_U o) *m sv_U o = 1%:M, adj (sv_V o) *m sv_V o = 1%:M,
      X *m sv_V o = sv_U o *m diag_mx (sv_s o), adj (sv_U o) *m X = diag_mx (sv_s o) *m adj (sv_V o)
      & forall j, 0 <= sv_s o 0 j].
Proof.
rewrite compute_svdE /= => HS; rewrite !take_colsE; split.
- exact: (trunc_UU (leq_ord _) HS).
- exact: (trunc_VV (leq_ord _) HS).
- exact: (trunc_XV (leq_ord _) HS).
- exact: (trunc_UX (leq_ord _) HS).
- exact: (sr_ge0 (leq_ord _) HS).
Qed.

Lemma fit_compressed_inv np cfg n p m (S : 'M[C]_(n, m.+1)) (Sc : 'M[C]_(p, m.+1)) f :
  fit_compressed np cfg S Sc = Ok f -> d_tlsq cfg = 0 -> c_fb (d_op cfg) = false ->
  c_tik (d_op cfg) = None /\
  let o := compute_svd np (col' ord_max Sc) (c_rank (d_op cfg)) in
  let A := least_square_operator None 0 (sv_U o) (sv_s o) (sv_V o) (col' ord0 Sc) in
  exists ew, eigenquantities np (d_op cfg) A = Ok ew /\
    cf_op f = CdOp (sv_U o) (sv_s o) (sv_V o) A ew.1 ew.2
        (compute_modes (d_op cfg) 0 (col' ord0 S) (0 : 'M_(n, sv_r o)) (sv_s o) (sv_V o) ew.2).
Proof.
rewrite /fit_compressed => H T Fb; move: H; rewrite /compute_tlsq T eqxx /= /cd_compute_operator /cd_least_squares.
case: (c_tik (d_op cfg))=> [?|] //=; rewrite /cd_forward_backward Fb /=.
case E: (eigenquantities _ _ _)=> [ew|x] //=.
case: (cd_amplitudes _ _ _ _)=> [b|x] //= -[<-] /=; split=> //.
by exists ew.
Qed.

Lemma compressed_facts np cfg n p m (S : 'M[C]_(n, m.+1)) (Sc : 'M[C]_(p, m.+1)) f :
  fit_compressed np cfg S Sc = Ok f -> plain_compressed np cfg Sc f ->
  let o := cf_op f in
  let W := unscale (c_rescale (d_op cfg)) (cd_vecs o) in
  [/\ cd_Atilde o *m W = W *m diag_mx (cd_eigs o) /\ (forall j, col j W != 0),
      cd_modes o = col' ord0 S *m (cd_V o *m diag_mx (recip (cd_s o))) *m W,
      cd_Atilde o = adj (cd_U o) *m col' ord0 Sc *m cd_V o *m diag_mx (recip (cd_s o)),
      adj (cd_U o) *m cd_U o = 1%:M /\ adj (cd_V o) *m cd_V o = 1%:M &
      [/\ col' ord_max Sc *m cd_V o = cd_U o *m diag_mx (cd_s o),
          adj (cd_U o) *m col' ord_max Sc = diag_mx (cd_s o) *m adj (cd_V o) & forall j, 0 <= cd_s o 0 j]].
Proof.
move=> HF [Ex T Fb Rs HS HE] /=; have [Tk [[e v] [He Ho]]] := fit_compressed_inv HF T Fb.
move: HE; rewrite Ho /= => HE.
have [Ah [HA _]] := sorted_spec He.
have [Ev Nz] := eig_sorted_eq He HA (HE _ HA).
have [f1 f2 f3 f4 f5] := compute_svd_facts (c_rank (d_op cfg)) HS.
split=> //.
- split; first exact: (ahat_eigen HA).
  by move=> j; apply: (unscale_col_neq0 HA).
- by rewrite modes_exact // Tk /= !mulmxA.
- by rewrite ls_op.
Qed.

Lemma col'_mul n p m (K : 'M[C]_(p, n)) (S : 'M[C]_(n, m.+1)) i : col' i (K *m S) = K *m col' i S.
Proof. by apply/matrixP=> a b; rewrite !mxE; apply: eq_bigr=> k _; rewrite !mxE. Qed.

Lemma plain_facts np n m cfg cfg' (S : 'M[C]_(n, m.+1)) g : plain_dmd np cfg cfg' S g ->
  let o := df_op g in
  [/\ adj (of_U o) *m of_U o = 1%:M, adj (of_V o) *m of_V o = 1%:M,
      col' ord_max S = of_U o *m diag_mx (of_s o) *m adj (of_V o), (forall j, of_s o 0 j != 0) &
      of_Atilde o = adj (of_U o) *m (col' ord0 S *m of_V o *m diag_mx (recip (of_s o)) *m adj (of_U o)) *m of_U o].
Proof.
case=> H T Fb Tk HS [HX Hs] o.
move: H; rewrite /fit /fit_pair /compute_tlsq T eqxx /=.
case E: (compute_operator _ _ _ _) => [c' [o'|x]] //= -[_].
case: (amplitudes _ _ _ _ _ _) => [b|x] //= -[Hg].
have Eo : o = o' by rewrite /o -Hg.
have [A [e [v [HF _ _ HO]]]] := compute_operator_inv E.
have svd_f := compute_svd_facts (c_rank (d_op cfg)) HS; rewrite compute_svdE /= in svd_f.
case: svd_f => f1 f2 _ _ _.
have Ea : of_Atilde o = adj (of_U o) *m col' ord0 S *m of_V o *m diag_mx (recip (of_s o)).
  by rewrite Eo HO /=; move: HF; rewrite /forward_backward Fb => -[<-]; rewrite ls_op Tk.
have HU : adj (of_U o) *m of_U o = 1%:M by rewrite Eo HO /=.
split=> //; first by rewrite Eo HO.
by rewrite Ea -!mulmxA HU mulmx1.
Qed.

(** modes of nonzero eigenvalues do not vanish *)
Lemma mode_neq0 n r (Z : 'M[C]_(n, r)) (W At : 'M[C]_r) (L : 'M[C]_(r, n)) e j :
  At = L *m Z -> At *m W = W *m diag_mx e -> col j W != 0 -> e 0 j != 0 -> col j (Z *m W) != 0.
Proof.
move=> EA HW Nz e0; apply: contraNneq Nz => H.
have E1 : L *m col j (Z *m W) = e 0 j *: col j W.
  have -> : L *m col j (Z *m W) = col j (At *m W) by rewrite EA !colE -!mulmxA.
  rewrite HW; apply/colP=> i; rewrite mul_mx_diag !mxE mulrC //.
move: E1; rewrite H mulmx0 => /esym/eqP; rewrite scaler_eq0 (negbTE e0) /=.
by move/eqP->.
Qed.

Theorem isometric_same np np1 cfg cfg1 cfg1' n p m (K : 'M[C]_(p, n)) (S : 'M[C]_(n, m.+1)) f g :
  fit_compressed np cfg S (K *m S) = Ok f -> plain_compressed np cfg (K *m S) f -> all_kept (K *m S) f ->
  isometric K S -> plain_dmd np1 cfg1 cfg1' S g ->
  same_spectrum (cd_Atilde (cf_op f)) (of_Atilde (df_op g)) /\
  eigenpairs (dmd_map (col' ord0 S) (of_U (df_op g)) (of_s (df_op g)) (of_V (df_op g))) (cd_eigs (cf_op f)) (cd_modes (cf_op f)).
Proof.
move=> HF HP [HX Hs] HI /plain_facts[U1 V1 X1 s1 ->].
have [[EW NW] Em Ea [UU VV] _] := compressed_facts HF HP.
set W := unscale _ _ in EW NW Em.
rewrite col'_mul in HX; rewrite col'_mul in Ea.
have HIX : adj K *m (K *m col' ord_max S) = col' ord_max S by rewrite -2!col'_mul HI.
rewrite dmd_mapE /full_op; split; first by rewrite Ea; have Q := (sim_iso (col' ord0 S) UU VV HX Hs HIX U1 V1 X1 s1 HIX); exact: Q.
rewrite Em; split.
- by apply: (eig_iso UU VV HX Hs HIX U1 V1 X1 s1 HIX); rewrite -Ea.
- move=> j e0; apply: (mode_neq0 _ EW) => //; rewrite Ea; exact: AtE.
Qed.

Theorem lossless_same np np1 cfg cfg1 cfg1' n p m (K : 'M[C]_(p, n)) (S : 'M[C]_(n, m.+1)) f g c :
  fit_compressed np cfg S (K *m S) = Ok f -> plain_compressed np cfg (K *m S) f -> all_kept (K *m S) f ->
  lossless K S -> col' ord0 S = col' ord_max S *m c -> plain_dmd np1 cfg1 cfg1' S g ->
  same_spectrum (cd_Atilde (cf_op f)) (of_Atilde (df_op g)) /\
  eigenpairs (dmd_map (col' ord0 S) (of_U (df_op g)) (of_s (df_op g)) (of_V (df_op g))) (cd_eigs (cf_op f)) (cd_modes (cf_op f)).
Proof.
move=> HF HP [HX Hs] [D HD] Yc /plain_facts[U1 V1 X1 s1 ->].
have [[EW NW] Em Ea [UU VV] _] := compressed_facts HF HP.
set W := unscale _ _ in EW NW Em.
rewrite col'_mul in HX; rewrite col'_mul in Ea.
have HDX : D *m (K *m col' ord_max S) = col' ord_max S by rewrite -2!col'_mul HD.
rewrite dmd_mapE /full_op; split; first by rewrite Ea; apply: (sim_inv UU VV HX Hs HDX U1 V1 X1 s1 Yc).
rewrite Em; split.
- by apply: (eig_inv UU VV HX Hs HDX U1 V1 X1 s1 Yc); rewrite -Ea.
- move=> j e0; apply: (mode_neq0 _ EW) => //; rewrite Ea; exact: AtE.
Qed.

(** truncated: the factors kept are singular triplets of the snapshots themselves *)
Theorem isometric_truncated np cfg n p m (K : 'M[C]_(p, n)) (S : 'M[C]_(n, m.+1)) f :
  fit_compressed np cfg S (K *m S) = Ok f -> plain_compressed np cfg (K *m S) f -> isometric K S ->
  (forall j, cd_s (cf_op f) 0 j != 0) ->
  let X := col' ord_max S in let o := cf_op f in let U := adj K *m cd_U o in
  [/\ adj U *m U = 1%:M /\ adj (cd_V o) *m cd_V o = 1%:M, X *m cd_V o = U *m diag_mx (cd_s o),
      adj U *m X = diag_mx (cd_s o) *m adj (cd_V o),
      cd_Atilde o = adj U *m dmd_map (col' ord0 S) U (cd_s o) (cd_V o) *m U &
      eigenpairs (dmd_map (col' ord0 S) U (cd_s o) (cd_V o)) (cd_eigs o) (cd_modes o)].
Proof.
move=> HF HP HI Hs X o U.
have [[EW NW] Em Ea [UU VV] [XV UX _]] := compressed_facts HF HP; rewrite -/o in EW NW Em Ea UU VV XV UX.
set W := unscale _ _ in EW NW Em.
have HIX : adj K *m (K *m X) = X by rewrite /X -2!col'_mul HI.
have HIY : adj K *m (K *m col' ord0 S) = col' ord0 S by rewrite -2!col'_mul HI.
have XV' : X *m cd_V o = U *m diag_mx (cd_s o) by rewrite /U -mulmxA -XV col'_mul -/X (mulmxA (adj K)) HIX.
have UE : U = X *m (cd_V o *m diag_mx (recip (cd_s o))) by rewrite mulmxA XV' -mulmxA diag_recip // mulmx1.
have KU : K *m U = cd_U o.
  by rewrite UE !mulmxA /X -col'_mul XV -mulmxA diag_recip // mulmx1.
have UU' : adj U *m U = 1%:M by rewrite {1}/U adjM adjK -mulmxA KU.
have EA : cd_Atilde o = adj U *m (col' ord0 S *m (cd_V o *m diag_mx (recip (cd_s o)))).
  by rewrite Ea col'_mul /U adjM adjK !mulmxA.
rewrite !dmd_mapE /full_op; split=> //.
- by rewrite /U adjM adjK -mulmxA /X -col'_mul UX.
- by rewrite -!mulmxA UU' mulmx1 EA.
- rewrite Em; split.
  + by rewrite -!mulmxA -[RHS]/(_ *m _) !(mulmxA _ _ (_ *m W)) -!mulmxA; congr (_ *m _); congr (_ *m _); congr (_ *m _); rewrite -EW EA !mulmxA.
  + by move=> j e0; apply: (mode_neq0 EA EW).
Qed.

(** linear data: eigenpairs of the true map *)
Theorem lossless_linear np cfg n p m (K : 'M[C]_(p, n)) (S : 'M[C]_(n, m.+1)) f (B : 'M[C]_n) c :
  fit_compressed np cfg S (K *m S) = Ok f -> plain_compressed np cfg (K *m S) f -> all_kept (K *m S) f ->
  lossless K S -> linear_data B S -> col' ord0 S = col' ord_max S *m c ->
  eigenpairs B (cd_eigs (cf_op f)) (cd_modes (cf_op f)).
Proof.
move=> HF HP [HX Hs] [D HD] HB Yc.
have [[EW NW] Em Ea [UU VV] _] := compressed_facts HF HP.
set W := unscale _ _ in EW NW Em.
rewrite col'_mul in HX; rewrite col'_mul in Ea.
have HDX : D *m (K *m col' ord_max S) = col' ord_max S by rewrite -2!col'_mul HD.
have YB := linear_pair HB.
have ZI := Z_inv UU VV HX Hs HDX Yc; rewrite -Ea in ZI.
rewrite Em; split; last by move=> j e0; apply: (mode_neq0 _ EW) => //; rewrite Ea; exact: AtE.
move: ZI; set G := _ *m diag_mx (recip _) => ZI.
have -> : B *m (col' ord0 S *m G *m W) = B *m (col' ord_max S *m G) *m (cd_Atilde (cf_op f) *m W).
  by rewrite ZI -!mulmxA.
by rewrite EW YB !mulmxA.
Qed.

(** ** identity compression *)
Lemma identity_same np cfg n m (S : 'M[C]_(n, m.+1)) :
  c_exact (d_op cfg) -> d_tlsq cfg = 0 -> c_fb (d_op cfg) = false -> c_tik (d_op cfg) = None ->
  c_rescale (d_op cfg) <> RsAuto C ->
  (let! f := fit_compressed np cfg S S in Ok (compressed_result f)) = (let! g := (fit np cfg S).2 in Ok (dmd_result g)).
Proof.
move=> Ex T Fb Tk Ra; rewrite /fit_compressed /fit /fit_pair /compute_tlsq T eqxx /=.
rewrite /cd_compute_operator /cd_least_squares Tk /= /cd_forward_backward Fb compute_svdE /=.
have Fx r (s : 'rV[C]_r) : fix_rescale (d_op cfg) s = d_op cfg by rewrite /fix_rescale; move: Ra; case: (c_rescale _).
rewrite /compute_operator; case: (np_svd np _) => [[U s] Vh] /=.
rewrite /forward_backward Fb /= Tk Fx /=.
case: (eigenquantities _ _ _)=> [[e v]|x] //=.
rewrite /compute_modes Ex Tk /= /cd_amplitudes /=; set Phi := scale_cols _ _ *m _.
rewrite /amplitudes /=; case: (d_opt cfg)=> [[]|z] /=.
- by case: (_ \in _).
- by case: insub.
- by case: (col_index _ z).
Qed.

(** ** refusals *)
Lemma compressed_tik np cfg n p m (S : 'M[C]_(n, m.+1)) (Sc : 'M[C]_(p, m.+1)) l :
  c_tik (d_op cfg) = Some l -> fit_compressed np cfg S Sc = Err TypeError.
Proof. by move=> H; rewrite /fit_compressed /cd_compute_operator /cd_least_squares H. Qed.
Lemma compressed_auto np cfg n p m (S : 'M[C]_(n, m.+1)) (Sc : 'M[C]_(p, m.+1)) :
  c_tik (d_op cfg) = None -> c_fb (d_op cfg) = false -> c_rescale (d_op cfg) = RsAuto C ->
  fit_compressed np cfg S Sc = Err ValueError.
Proof.
move=> T F H; rewrite /fit_compressed /cd_compute_operator /cd_least_squares T /= /cd_forward_backward F /=.
by rewrite /eigenquantities H.
Qed.
Lemma compressed_auto_fb np cfg n p m (S : 'M[C]_(n, m.+1)) (Sc : 'M[C]_(p, m.+1)) f :
  c_rescale (d_op cfg) = RsAuto C -> fit_compressed np cfg S Sc <> Ok f.
Proof.
move=> H; rewrite /fit_compressed /cd_compute_operator; case: (cd_least_squares _ _ _ _ _)=> [A|x] //=.
case: (cd_forward_backward _ _ _ _ _)=> [A'|x] //=.
by rewrite /eigenquantities H.
Qed.

Lemma sample_rows n N m (f : 'I_N -> 'I_n) (S : 'M[C]_(n, m)) i : row i (sample_mx C f *m S) = row (f i) S.
Proof.
apply/rowP=> j; rewrite !mxE (bigD1 (f i)) //= !mxE eqxx mul1r big1 ?addr0 // => k Hk.
by rewrite !mxE (negbTE Hk) mul0r.
Qed.
Lemma sample_orth n N (f : 'I_N -> 'I_n) : injective f -> sample_mx C f *m adj (sample_mx C f) = 1%:M.
Proof.
move=> If; apply/matrixP=> i j; rewrite !mxE (bigD1 (f i)) //= !mxE eqxx mul1r big1 ?addr0.
- by rewrite (inj_eq If) conjC_nat.
- by move=> k Hk; rewrite !mxE (negbTE Hk) mul0r.
Qed.

(** ** RDMD *)
Lemma rdmd_fitE np cfg qr n m (gen : forall l, 'M[C]_(m.+1, l)) t (S : 'M[C]_(n, m.+1)) l (Om : 'M[C]_(m.+1, l)) :
  rqb_test np cfg gen S t = existT _ m.+1 (existT _ l Om) ->
  rdmd_fit np cfg qr gen t S =
  (Some (existT _ m.+1 (existT _ l Om)),
   let Q := rqb_Q qr S Om (rd_iters cfg) in
   let! f := fit_compressed np (rd_cfg_ cfg) S (adj (projT2 Q) *m S) in Ok (existT _ (projT1 Q) f)).
Proof. by move=> E; rewrite /rdmd_fit E [projT1 _]/= eqxx /= conform_mx_id. Qed.
Lemma rdmd_fit_inv np cfg qr n m (gen : forall l, 'M[C]_(m.+1, l)) t t' (S : 'M[C]_(n, m.+1)) p (f : cd_fit C n p m) :
  rdmd_fit np cfg qr gen t S = (t', Ok (existT _ p f)) ->
  exists l (Om : 'M[C]_(m.+1, l)), t' = Some (existT _ m.+1 (existT _ l Om)) /\
    exists K : 'M[C]_(p, n), rqb_Q qr S Om (rd_iters cfg) = existT _ p (adj K) /\
    fit_compressed np (rd_cfg_ cfg) S (K *m S) = Ok f.
Proof.
case E: (rqb_test np cfg gen S t) => [q [l Om]]; have [Eq|Eq] := eqVneq q m.+1; last first.
  by rewrite /rdmd_fit E [projT1 _]/= Eq.
subst q; rewrite (rdmd_fitE _ E).
have [p' [Q EQ]] : exists p' Q, rqb_Q qr S Om (rd_iters cfg) = existT _ p' Q.
  by case: (rqb_Q qr S Om (rd_iters cfg)) => p' Q; exists p', Q.
rewrite EQ /=.
case F: (fit_compressed _ _ _ _)=> [f'|x] //= -[<-] H Hf; subst p'; exists l, Om; split=> //.
exists (adj Q); rewrite adjK EQ; split=> //; rewrite F; congr Ok.
exact: (Eqdep_dec.inj_pair2_eq_dec _ PeanoNat.Nat.eq_dec _ _ _ _ Hf).
Qed.
Lemma rdmd_isometric np cfg qr n m (gen : forall l, 'M[C]_(m.+1, l)) t (S : 'M[C]_(n, m.+1)) p (f : cd_fit C n p m) l
    (Om : 'M[C]_(m.+1, l)) (K : 'M[C]_(p, n)) :
  rdmd_fit np cfg qr gen t S = (Some (existT _ m.+1 (existT _ l Om)), Ok (existT _ p f)) ->
  rqb_Q qr S Om (rd_iters cfg) = existT _ p (adj K) ->
  rqb_calls qr S Om (rd_iters cfg) -> qr_ok qr (projT2 (rqb_sketch qr S Om (rd_iters cfg))) ->
  (exists c, S = S *m Om *m c) ->
  [/\ isometric K S, K *m adj K = 1%:M & fit_compressed np (rd_cfg_ cfg) S (K *m S) = Ok f].
Proof.
move=> H EQ Hc Hq Hs; have [l' [Om' [E [K' [EQ' F]]]]] := rdmd_fit_inv H.
case: E => Hl HO; subst l'.
have HO1 := Eqdep_dec.inj_pair2_eq_dec _ PeanoNat.Nat.eq_dec _ _ _ _ HO.
have HO2 := Eqdep_dec.inj_pair2_eq_dec _ PeanoNat.Nat.eq_dec _ _ _ _ HO1; subst Om'.
move: EQ'; rewrite EQ => EQ'.
have /adj_inj HK := Eqdep_dec.inj_pair2_eq_dec _ PeanoNat.Nat.eq_dec _ _ _ _ EQ'; subst K'.
have [A B _ _] := rqb_exact Hc Hq Hs; move: A B; rewrite EQ /= adjK => A B.
by split.
Qed.
Lemma rdmd_keeps np cfg qr n m (gen : forall l, 'M[C]_(m.+1, l)) T (S : 'M[C]_(n, m.+1)) :
  (rdmd_fit np cfg qr gen (Some T) S).1 = Some T.
Proof. by rewrite /rdmd_fit /=; case: eqP. Qed.
End Fit.
Section More.
Variable C : numClosedFieldType.
Implicit Type np : numpy C.

Lemma col_index_spec N z (j : 'I_N) : col_index N z = Some j -> j = (if 0 <= z then z else N%:Z + z) :> int.
Proof.
case: z => a /=; first by case: insubP => //= u _ Hu [<-]; rewrite Hu.
case: leqP => // H; case: insubP => //= u _ Hu [<-]; rewrite Hu.
by rewrite NegzE -subzn.
Qed.
Lemma cdmd_amplitudes np cfg n m c (d : draws C n m.+1) (S : 'M[C]_(n, m.+1)) p (f : cd_fit C n p m) (z : int) :
  cdmd_fit np cfg c d S = Ok (existT _ p f) -> d_opt cfg = OptInt z \/ (d_opt cfg = OptBool false /\ z = 0) ->
  exists j : 'I_m.+1, (j = (if 0 <= z then z else m.+1%:Z + z) :> int) /\
    (lstsq_ok np (cd_modes (cf_op f)) (col j S) -> is_lstsq (cd_modes (cf_op f)) (col j S) (cf_b f)).
Proof.
rewrite /cdmd_fit; case: (compression_mx _ _)=> [[p' K]|x] //=.
case E: (fit_compressed _ _ _ _)=> [f'|x] //= -[Hp Hf] Ho; subst p'.
have {Hf}Hf := Eqdep_dec.inj_pair2_eq_dec _ PeanoNat.Nat.eq_dec _ _ _ _ Hf; subst f'.
move: E; rewrite /fit_compressed.
case: (cd_compute_operator _ _ _ _ _)=> [o|x] //=.
case Ea: (cd_amplitudes _ _ _ _)=> [b|x] //= -[<-] /=.
have [j [Hj ->]] : exists j, col_index m.+1 z = Some j /\ b = np_lstsq np (cd_modes o) (col j S).
  move: Ea; rewrite /cd_amplitudes /amplitudes; case: Ho => [->|[-> ->]].
  - by case: (col_index _ z) => // j [<-]; exists j.
  - by case: (col_index m.+1 0) => // j [<-]; exists j.
by exists j; split; first exact: col_index_spec.
Qed.

Lemma fb_square_op np n m cfg cfg' (X Y : 'M[C]_(n, m)) o :
  compute_operator np cfg X Y = (cfg', Ok o) -> c_fb cfg -> c_tik cfg = None ->
  let r := np_rank np (np_svd np X).1.2 n m (c_rank cfg) in
  let F := least_square_operator None 0 (take_cols (np_svd np X).1.1 r) (take_cols (np_svd np X).1.2 r) (take_cols (adj (np_svd np X).2) r) Y in
  let B := least_square_operator None 0 (take_cols (np_svd np Y).1.1 r) (take_cols (np_svd np Y).1.2 r) (take_cols (adj (np_svd np Y).2) r) X in
  B \in unitmx /\ exists A : 'M[C]_r, existT (fun k => 'M[C]_k) (r : nat) A = existT _ (of_r o) (of_Atilde o) /\
    (sqrtm_ok np (F *m invmx B) -> A *m A *m B = F).
Proof.
move=> E Fb Tk r F B; have [A [e [v [HF _ _ ->]]]] := compute_operator_inv E.
rewrite forward_backwardE Fb Tk in HF.
have {}HF : (if B \in unitmx then Ok (np_sqrtm np (F *m invmx B)) else Err LinAlgError) = Ok A by exact: HF.
move: HF; case: ifP => // HB [HA]; split=> //.
exists A; split=> //.
by move=> Hq; rewrite -HA Hq -mulmxA mulVmx // mulmx1.
Qed.
Lemma fb_square np n m rk tlsq exact opt rs so cfg' (S : 'M[C]_(n, m.+1)) f :
  let cfg := fbdmd_cfg rk tlsq exact opt rs so in
  fit np cfg S = (cfg', Ok f) ->
  let XY := compute_tlsq np (col' ord_max S) (col' ord0 S) tlsq in
  let X := XY.1 in let Y := XY.2 in
  let r := np_rank np (np_svd np X).1.2 n m rk in
  let F := least_square_operator None 0 (take_cols (np_svd np X).1.1 r) (take_cols (np_svd np X).1.2 r) (take_cols (adj (np_svd np X).2) r) Y in
  let B := least_square_operator None 0 (take_cols (np_svd np Y).1.1 r) (take_cols (np_svd np Y).1.2 r) (take_cols (adj (np_svd np Y).2) r) X in
  B \in unitmx /\ exists A : 'M[C]_r, existT (fun k => 'M[C]_k) (r : nat) A = existT _ (of_r (df_op f)) (of_Atilde (df_op f)) /\
    (sqrtm_ok np (F *m invmx B) -> A *m A *m B = F).
Proof.
move=> cfg H XY X Y r F B; move: H; rewrite /fit /fit_pair.
case E: (compute_operator _ _ _ _) => [c' [o'|x]] //=.
case: (amplitudes _ _ _ _ _ _) => [b|x] //= -[_ <-].
exact: (fb_square_op E).
Qed.
End More.
