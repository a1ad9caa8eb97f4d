From mathcomp Require Import all_ssreflect all_algebra fingroup perm.
From Verif Require Import Py LinAlg Model_Operator Spec_Operator Proofs_OpCore Proofs_Operator.
Set Implicit Arguments. Unset Strict Implicit. Unset Printing Implicit Defensive.
Import Order.TTheory GRing.Theory Num.Theory.
Local Open Scope ring_scope.

Section Proofs.
Variable C : numClosedFieldType.
Implicit Type np : numpy C.

Definition unscale (rs : rescale C) r (v : 'M[C]_r) : 'M[C]_r :=
  match rs with RsArr f => diag_mx (sqrt_row (row_of r f)) *m v | _ => v end.

Lemma sqrt_row_neq0 r f : size f = r -> all (fun x : C => x != 0) f -> forall j, sqrt_row (row_of r f) 0 j != 0.
Proof.
by move=> Sz /allP Hf j; rewrite !mxE sqrtC_eq0; apply: Hf; apply: mem_nth; rewrite Sz.
Qed.

Lemma ahat_eigen rs r (A Ah v : 'M[C]_r) e : ahat rs A = Ok Ah -> rescale_ok rs ->
  Ah *m v = v *m diag_mx e -> A *m unscale rs v = unscale rs v *m diag_mx e.
Proof.
case: rs=> [||f|] //=; first by case=> <-.
case: eqP=> //= Sz [<-] Hf H; have Hn := sqrt_row_neq0 Sz Hf.
rewrite -mulmxA -H !mulmxA diag_recip // mul1mx //.
Qed.

Lemma unscale_col_neq0 rs r (A Ah v : 'M[C]_r) j : ahat rs A = Ok Ah -> rescale_ok rs ->
  col j v != 0 -> col j (unscale rs v) != 0.
Proof.
case: rs=> [||f|] //=; case: eqP=> //= Sz _ Hf; apply: contraNneq=> H.
have Hn := sqrt_row_neq0 Sz Hf.
have HD : col j (diag_mx (sqrt_row (row_of r f)) *m v) = diag_mx (sqrt_row (row_of r f)) *m col j v.
  by rewrite !colE mulmxA.
by rewrite -(mul1mx (col j v)) -(recip_diag Hn) -mulmxA -HD H mulmx0.
Qed.

Lemma unscale_unit rs r (A Ah v : 'M[C]_r) : ahat rs A = Ok Ah -> rescale_ok rs ->
  v \in unitmx -> unscale rs v \in unitmx.
Proof.
case: rs=> [||f|] //=; case: eqP=> //= Sz _ Hf Hv; rewrite unitmx_mul Hv andbT unitmxE det_diag unitfE.
by apply/prodf_neq0=> j _; exact: sqrt_row_neq0.
Qed.

Lemma eig_sorted_eq np cfg r (A Ah : 'M[C]_r) e v : eigenquantities np cfg A = Ok (e, v) ->
  ahat (c_rescale cfg) A = Ok Ah -> eig_ok np Ah ->
  Ah *m v = v *m diag_mx e /\ forall j, col j v != 0.
Proof.
move=> H HA [HE HN]; have [Ah' [HA' [p [He Hv _ _]]]] := sorted_spec H.
move: HA'; rewrite HA=> -[E]; rewrite -{}E in He Hv.
have Hvij i j : v i j = (np_eig np Ah).2 i (p j).
  by have := congr1 (fun c : 'cV_r => c i 0) (Hv j); rewrite !mxE.
split.
- apply/matrixP=> i j; have := congr1 (fun M : 'M_r => M i (p j)) HE.
  rewrite !mul_mx_diag !mxE => HH; rewrite Hvij He -HH.
  by apply: eq_bigr=> k _; rewrite Hvij.
- move=> j; rewrite Hv; apply/eqP=> Z; have := HN (p j).
  rewrite big1 => [/eqP|i _]; first by rewrite eq_sym oner_eq0.
  by have := congr1 (fun c : 'cV_r => c i 0) Z; rewrite !mxE => ->; rewrite normr0 expr0n.
Qed.

Lemma ls_op tik nX n m r (U : 'M[C]_(n, r)) s (V : 'M[C]_(m, r)) Y :
  least_square_operator tik nX U s V Y = adj U *m Y *m V *m diag_mx (recip (reg_s tik nX s)).
Proof. by rewrite /least_square_operator scale_colsE. Qed.

Lemma modes_exact cfg nX n m r (Y : 'M[C]_(n, m)) (U : 'M[C]_(n, r)) s V v : c_exact cfg ->
  compute_modes cfg nX Y U s V v = Y *m V *m diag_mx (recip (reg_s (c_tik cfg) nX s)) *m unscale (c_rescale cfg) v.
Proof. by move=> E; rewrite /compute_modes E scale_colsE. Qed.
Lemma modes_proj cfg nX n m r (Y : 'M[C]_(n, m)) (U : 'M[C]_(n, r)) s V v : c_exact cfg = false ->
  compute_modes cfg nX Y U s V v = U *m unscale (c_rescale cfg) v.
Proof. by move=> E; rewrite /compute_modes E. Qed.

Lemma fix_rescale_fields cfg r (s : 'rV[C]_r) : let cfg' := fix_rescale cfg s in
  [/\ c_exact cfg' = c_exact cfg, c_tik cfg' = c_tik cfg, c_fb cfg' = c_fb cfg, c_rank cfg' = c_rank cfg
    & c_sorted cfg' = c_sorted cfg].
Proof. by rewrite /fix_rescale; case: (c_rescale cfg). Qed.

(** everything that follows from a successful fit of the operator *)
Lemma operator_facts np n m cfg cfg' (X Y : 'M[C]_(n, m)) o :
  compute_operator np cfg X Y = (cfg', Ok o) ->
  rescale_ok (c_rescale cfg') ->
  (forall Ah, ahat (c_rescale cfg') (of_Atilde o) = Ok Ah -> eig_ok np Ah) ->
  let S := reg_s (c_tik cfg) (np_norm np X) (of_s o) in
  let W := unscale (c_rescale cfg') (of_vecs o) in
  [/\ of_Atilde o *m W = W *m diag_mx (of_eigs o),
      (forall j, col j W != 0),
      of_modes o = (if c_exact cfg then Y *m of_V o *m diag_mx (recip S) *m W else of_U o *m W),
      (c_fb cfg = false -> of_Atilde o = adj (of_U o) *m Y *m of_V o *m diag_mx (recip S)) &
      (svd_ok np X -> [/\ adj (of_U o) *m of_U o = 1%:M, adj (of_V o) *m of_V o = 1%:M,
         X *m of_V o = of_U o *m diag_mx (of_s o), adj (of_U o) *m X = diag_mx (of_s o) *m adj (of_V o)
         & forall j, 0 <= of_s o 0 j])].
Proof.
case/compute_operator_inv=> A [e [v [HF Hc He ->]]] /= Hr HE.
have [Fe Ft _ _ _] := fix_rescale_fields cfg (take_cols (np_svd np X).1.2 (np_rank np (np_svd np X).1.2 n m (c_rank cfg))).
rewrite -Hc in Fe Ft.
have [Ah [HA _]] := sorted_spec He.
have [Ev Nz] := eig_sorted_eq He HA (HE _ HA).
split.
- exact: (ahat_eigen HA).
- by move=> j; apply: (unscale_col_neq0 HA).
- case Ex: (c_exact cfg); first by rewrite modes_exact ?Ft // Fe.
  by rewrite modes_proj // Fe.
- by move=> Fb; move: HF; rewrite /forward_backward Fb => -[<-]; rewrite ls_op.
- rewrite /svd_ok => HS; rewrite !take_colsE; split.
  + exact: (trunc_UU (leq_ord _) HS).
  + exact: (trunc_VV (leq_ord _) HS).
  + exact: (trunc_XV (leq_ord _) HS).
  + exact: (trunc_UX (leq_ord _) HS).
  + exact: (sr_ge0 (leq_ord _) HS).
Qed.

Lemma operator_unit np n m cfg cfg' (X Y : 'M[C]_(n, m)) o :
  compute_operator np cfg X Y = (cfg', Ok o) -> rescale_ok (c_rescale cfg') ->
  of_vecs o \in unitmx -> unscale (c_rescale cfg') (of_vecs o) \in unitmx.
Proof.
case/compute_operator_inv=> A [e [v [HF Hc He ->]]] /= Hr Hu.
have [Ah [HA _]] := sorted_spec He.
exact: (unscale_unit HA).
Qed.

(** C13 *)
Theorem exact_modes np n m cfg cfg' (X Y : 'M[C]_(n, m)) o :
  compute_operator np cfg X Y = (cfg', Ok o) -> c_exact cfg -> c_fb cfg = false ->
  rescale_ok (c_rescale cfg') ->
  (forall Ah, ahat (c_rescale cfg') (of_Atilde o) = Ok Ah -> eig_ok np Ah) ->
  let A := dmd_map Y (of_U o) (reg_s (c_tik cfg) (np_norm np X) (of_s o)) (of_V o) in
  A *m of_modes o = of_modes o *m diag_mx (of_eigs o) /\
  forall j, of_eigs o 0 j != 0 -> col j (of_modes o) != 0.
Proof.
move=> H Ex Fb Hr HE A; have [Hw Nz Hm HA _] := operator_facts H Hr HE.
rewrite Ex in Hm; rewrite /A dmd_mapE; have HA' := HA Fb.
have Q : adj (of_U o) *m Y *m of_V o *m diag_mx (recip (reg_s (c_tik cfg) (np_norm np X) (of_s o))) *m
   unscale (c_rescale cfg') (of_vecs o) = unscale (c_rescale cfg') (of_vecs o) *m diag_mx (of_eigs o).
  by rewrite -HA'.
split; first by rewrite Hm; exact: exact_eigen.
move=> j Hj; apply/eqP=> Z.
have := exact_nonzero Y (of_U o) (reg_s (c_tik cfg) (np_norm np X) (of_s o)) (of_V o) (unscale (c_rescale cfg') (of_vecs o)).
rewrite -Hm Q => /(congr1 (col j)).
have -> : col j (adj (of_U o) *m of_modes o) = adj (of_U o) *m col j (of_modes o).
  by rewrite !colE mulmxA.
rewrite Z mulmx0 => /esym /eqP; apply/negP.
have -> : col j (unscale (c_rescale cfg') (of_vecs o) *m diag_mx (of_eigs o)) =
          of_eigs o 0 j *: col j (unscale (c_rescale cfg') (of_vecs o)).
  by apply/colP=> i; rewrite mxE mul_mx_diag !mxE mulrC.
by rewrite scaler_eq0 negb_or Hj Nz.
Qed.

Theorem projected_modes np n m cfg cfg' (X Y : 'M[C]_(n, m)) o :
  compute_operator np cfg X Y = (cfg', Ok o) -> c_exact cfg = false -> c_fb cfg = false ->
  rescale_ok (c_rescale cfg') ->
  (forall Ah, ahat (c_rescale cfg') (of_Atilde o) = Ok Ah -> eig_ok np Ah) -> svd_ok np X ->
  let A := dmd_map Y (of_U o) (reg_s (c_tik cfg) (np_norm np X) (of_s o)) (of_V o) in
  (of_U o *m adj (of_U o) *m A) *m of_modes o = of_modes o *m diag_mx (of_eigs o) /\
  forall j, col j (of_modes o) != 0.
Proof.
move=> H Ex Fb Hr HE HS A; have [Hw Nz Hm HA Hsv] := operator_facts H Hr HE.
rewrite Ex in Hm; rewrite /A dmd_mapE; have HA' := HA Fb; have [HU _ _ _ _] := Hsv HS.
split; first by rewrite Hm; apply: proj_eigen=> //; rewrite -HA'.
move=> j; rewrite Hm; apply/eqP=> Z; have /eqP := Nz j; apply.
rewrite colE in Z; rewrite -(mul1mx (col j _)) -HU colE -!mulmxA.
by rewrite -!mulmxA in Z; rewrite Z mulmx0.
Qed.

Theorem reduced_operator np n m cfg cfg' (X Y : 'M[C]_(n, m)) o :
  compute_operator np cfg X Y = (cfg', Ok o) -> c_fb cfg = false -> svd_ok np X ->
  of_Atilde o = adj (of_U o) *m dmd_map Y (of_U o) (reg_s (c_tik cfg) (np_norm np X) (of_s o)) (of_V o) *m of_U o.
Proof.
case/compute_operator_inv=> A [e [v [HF Hc He ->]]] /= Fb; rewrite /svd_ok => HS.
move: HF; rewrite /forward_backward Fb => -[<-]; rewrite ls_op dmd_mapE; apply/esym; apply: atilde_proj.
rewrite !take_colsE; exact: (trunc_UU (leq_ord _) HS).
Qed.

Lemma operator_exact_svd np n m cfg cfg' (X Y : 'M[C]_(n, m)) o :
  compute_operator np cfg X Y = (cfg', Ok o) -> svd_ok np X -> untruncated X (of_U o) (of_s o) (of_V o) ->
  exact_svd X (of_U o) (of_s o) (of_V o) /\ (forall j, 0 < of_s o 0 j).
Proof.
case/compute_operator_inv=> A [e [v [HF Hc He ->]]] /=; rewrite /svd_ok => HS [EX Hs].
have UU := trunc_UU (leq_ord (np_rank np (np_svd np X).1.2 n m (c_rank cfg))) HS.
have VV := trunc_VV (leq_ord (np_rank np (np_svd np X).1.2 n m (c_rank cfg))) HS.
split; first by split=> //; rewrite take_colsE.
move=> j; rewrite lt_def Hs /=; rewrite take_colsE; exact: (sr_ge0 (leq_ord _) HS).
Qed.

(** the fitted operator is the best linear map from X to Y *)
Theorem least_squares np n m cfg cfg' (X Y : 'M[C]_(n, m)) o :
  compute_operator np cfg X Y = (cfg', Ok o) -> svd_ok np X -> untruncated X (of_U o) (of_s o) (of_V o) ->
  forall B, frob2 (Y - dmd_map Y (of_U o) (of_s o) (of_V o) *m X) <= frob2 (Y - B *m X).
Proof. by move=> H HS HU B; have [HE _] := operator_exact_svd H HS HU; rewrite dmd_mapE; exact: full_op_optimal. Qed.

(** Tikhonov: the normal equations of ridge regression with parameter l * norm X *)
Theorem tikhonov np n m cfg cfg' (X Y : 'M[C]_(n, m)) o l :
  compute_operator np cfg X Y = (cfg', Ok o) -> c_tik cfg = Some l -> 0 <= l ->
  svd_ok np X -> untruncated X (of_U o) (of_s o) (of_V o) -> norm_ok np X ->
  dmd_map Y (of_U o) (reg_s (c_tik cfg) (np_norm np X) (of_s o)) (of_V o) *m (X *m adj X + (l * np_norm np X)%:M) = Y *m adj X.
Proof.
move=> H Ht Hl HS HU [Hn _]; have [HE Hp] := operator_exact_svd H HS HU.
by rewrite dmd_mapE Ht; apply: ridge_normal=> //; exact: mulr_ge0.
Qed.
End Proofs.
