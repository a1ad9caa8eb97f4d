(** * C53: the amplitudes of opt=True; the forward-backward option of the compressed DMD (C32) *)
From mathcomp Require Import all_ssreflect all_algebra all_field.
From Verif Require Import Py LinAlg Model_Operator Spec_Operator Proofs_OpCore Proofs_Operator Proofs_Operator2 Proofs_Recovery Examples_Operator.
From Verif Require Import Model_CDMD Proofs_CDMD Proofs_OptAmp Refuted_Operator Properties_CDMD.
Set Implicit Arguments. Unset Strict Implicit. Unset Printing Implicit Defensive.
Import GRing.Theory Num.Theory Order.TTheory.
Local Open Scope ring_scope.
Local Notation AC := algCnumClosedField.

Section C53.
Variable C : numClosedFieldType.
Implicit Type np : numpy C.

(** the reconstructed data at the training times is the evolution of the modes *)
Lemma reconstruction_evolution np n r (Phi : 'M[C]_(n, r)) L b bo T t0 dt N (ts : 'I_N -> rat) :
  power_ok np -> dt != 0 -> (forall i, ts i = t0 + i%:R * dt) ->
  reconstruction Phi (dynamics np L b (OptBool bo) T t0 dt ts) = evolution Phi L b N.
Proof.
move=> HP Hdt Ht; apply/matrixP=> i k.
have E := dyn_col b HP Hdt (Ht k) (erefl : anchor (OptBool bo) T = 0%N%:Z) (or_intror (leq0n k)).
rewrite /reconstruction !mxE; apply: eq_bigr=> j _.
have := congr1 (fun M : 'cV[C]_r => M j 0) (E L); rewrite mxE => ->.
by rewrite mxE subr0 -mulrA -exprnP [b j 0 * _]mulrC.
Qed.

(** DMD with exact modes: no other choice of amplitudes brings the reconstruction closer to the snapshots,
    and none brings it as close *)
Theorem C53_dmd np cfg cfg' n m (S : 'M[C]_(n, m.+1)) f :
  fit np cfg S = (cfg', Ok f) -> d_opt cfg = OptBool true -> c_exact (d_op cfg) ->
  (let P := opt_P (of_modes (df_op f)) (of_eigs (df_op f)) m.+1 in forall q, P \in unitmx -> solve_ok np P q) -> power_ok np ->
  forall t0 dt (ts : 'I_m.+1 -> rat), dt != 0 -> (forall i, ts i = t0 + i%:R * dt) ->
  let data b := reconstruction (of_modes (df_op f)) (dynamics np (of_eigs (df_op f)) b (d_opt cfg) m.+1 t0 dt ts) in
  forall c, frob2 (S - data (df_b f)) <= frob2 (S - data c) /\
            (frob2 (S - data c) <= frob2 (S - data (df_b f)) -> c = df_b f).
Proof.
move=> H Ho He Hs HP t0 dt ts Hdt Ht data c.
have [_ Ha _ _] := fit_inv H; rewrite Ho He in Ha.
have [H1 H2] := amplitudes_optimal Ha Hs.
have E b : data b = evolution (of_modes (df_op f)) (of_eigs (df_op f)) b m.+1 by rewrite /data Ho reconstruction_evolution.
by rewrite !E; split; [exact: H1|exact: H2].
Qed.

(** the same for the compressed DMD, against the full snapshots *)
Theorem C53_cdmd np cfg n p m c (d : draws C n m.+1) (S : 'M[C]_(n, m.+1)) (f : cd_fit C n p m) :
  cdmd_fit np cfg c d S = Ok (existT _ p f) -> d_opt cfg = OptBool true ->
  (let P := opt_P (cd_modes (cf_op f)) (cd_eigs (cf_op f)) m.+1 in forall q, P \in unitmx -> solve_ok np P q) -> power_ok np ->
  forall t0 dt (ts : 'I_m.+1 -> rat), dt != 0 -> (forall i, ts i = t0 + i%:R * dt) ->
  let data b := reconstruction (cd_modes (cf_op f)) (dynamics np (cd_eigs (cf_op f)) b (d_opt cfg) m.+1 t0 dt ts) in
  forall b, frob2 (S - data (cf_b f)) <= frob2 (S - data b) /\
            (frob2 (S - data b) <= frob2 (S - data (cf_b f)) -> b = cf_b f).
Proof.
rewrite /cdmd_fit; case: (compression_mx _ _)=> [[p' K]|x] //=.
case E: (fit_compressed _ _ _ _)=> [f'|x] //= -[Hp Hf] Ho; subst p'.
have {Hf}Hf := Eqdep_dec.inj_pair2_eq_dec _ PeanoNat.Nat.eq_dec _ _ _ _ Hf; subst f'.
move: E; rewrite /fit_compressed; case: (cd_compute_operator _ _ _ _ _)=> [o|x] //=.
case Ea: (cd_amplitudes _ _ _ _)=> [b|x] //= -[<-] /= Hs HP t0 dt ts Hdt Ht b'.
move: Ea; rewrite /cd_amplitudes Ho => Ea.
have [H1 H2] := @amplitudes_optimal C np n m.+1 m S _
  (OpFit (0 : 'M_(n, cd_r o)) (cd_s o) (cd_V o) (cd_Atilde o) (cd_eigs o) (cd_vecs o) (cd_modes o)) b Ea Hs.
rewrite !reconstruction_evolution //.
by split; [exact: H1|exact: H2].
Qed.

Lemma fb_square_conform np r r' (F : 'M[C]_r) (B : 'M[C]_r') (B' : 'M[C]_r) : r' = r ->
  existT (fun k => 'M[C]_k) r B' = existT _ r' B -> B \in unitmx -> sqrtm_ok np (F *m invmx B') ->
  let A := np_sqrtm np (F *m conform_mx 0 (invmx B)) in A *m A *m B' = F.
Proof.
move=> Hr; subst r' => EB; have {}EB := Eqdep_dec.inj_pair2_eq_dec _ PeanoNat.Nat.eq_dec _ _ _ _ EB; subst B'.
by move=> HB Hq A; rewrite /A conform_mx_id Hq -mulmxA mulVmx // mulmx1.
Qed.
(** ** C32: forward_backward in the compressed space.  The backward operator is fitted from the later to
    the earlier compressed snapshots with its own rank, which must be the rank of the forward one; the square of the
    operator times the backward one is the forward one. *)
Theorem C32_compressed_forward_backward np cfg n p m c (d : draws C n m.+1) (K : 'M[C]_(p, n)) (S : 'M[C]_(n, m.+1)) (f : cd_fit C n p m) :
  cdmd_fit np cfg c d S = Ok (existT _ p f) -> compression_mx d c = Ok (existT _ p K) -> c_fb (d_op cfg) ->
  let XY := compute_tlsq np (col' ord_max (K *m S)) (col' ord0 (K *m S)) (d_tlsq cfg) in
  let fw := compute_svd np XY.1 (c_rank (d_op cfg)) in
  let bw := compute_svd np XY.2 (c_rank (d_op cfg)) in
  let F := least_square_operator None 0 (sv_U fw) (sv_s fw) (sv_V fw) XY.2 in
  let B := least_square_operator None 0 (sv_U bw) (sv_s bw) (sv_V bw) XY.1 in
  sv_r bw = sv_r fw /\ B \in unitmx /\
  exists A : 'M[C]_(sv_r fw), existT (fun k => 'M[C]_k) _ A = existT _ (cd_r (cf_op f)) (cd_Atilde (cf_op f)) /\
    forall B' : 'M[C]_(sv_r fw), existT (fun k => 'M[C]_k) _ B' = existT _ _ B ->
    sqrtm_ok np (F *m invmx B') -> A *m A *m B' = F.
Proof.
move=> H HK Fb XY fw bw F B; move: H; rewrite /cdmd_fit HK /=.
case E: (fit_compressed _ _ _ _)=> [f'|x] //= -[Hf].
have {Hf}Hf := Eqdep_dec.inj_pair2_eq_dec _ PeanoNat.Nat.eq_dec _ _ _ _ Hf; subst f'.
move: E; rewrite /fit_compressed -/XY /cd_compute_operator /cd_least_squares.
case Tk: (c_tik (d_op cfg))=> [?|] //=; rewrite -/fw -/F /cd_forward_backward Fb /= /cd_least_squares Tk /= -/bw -/B.
case: ifP => //= /negbFE HB; case: eqP => //= Hr.
case: (eigenquantities _ _ _)=> [ew|x] //=.
case: (cd_amplitudes _ _ _ _)=> [b|x] //= -[<-] /=.
split=> //; split=> //; exists (np_sqrtm np (F *m conform_mx 0 (invmx B))); split=> //.
move=> B' EB Hq; exact: (fb_square_conform Hr EB HB Hq).
Qed.
End C53.
Print Assumptions C53_dmd.
Print Assumptions C53_cdmd.
Print Assumptions C32_compressed_forward_backward.

(** the hypotheses of C53_dmd hold for the swap system *)
Example C53_case : fit ex_np (ex_cfg true (OptBool true)) ex_S = (ex_cfg true (OptBool true), Ok (ex_fopt true)) /\
  (forall r (P : 'M[AC]_r) q, P \in unitmx -> solve_ok ex_np P q) /\ power_ok ex_np.
Proof. by split; [exact: ex_fit_opt | split; [move=> r P q; exact: ex_solve | exact: ex_power_spec]]. Qed.

(** ** Projected modes: the amplitudes of opt=True are not the best ones for the swap system *)
Theorem C53_projected_refuted :
  exists np (cfg cfg' : dmd_cfg AC) (S : 'M[AC]_(2, 3)) f,
  [/\ fit np cfg S = (cfg', Ok f), d_opt cfg = OptBool true /\ c_exact (d_op cfg) = false,
      (forall r (P : 'M[AC]_r) q, P \in unitmx -> solve_ok np P q), power_ok np &
      forall ts : 'I_3 -> rat, (forall i, ts i = i%:R) ->
      let data b := reconstruction (of_modes (df_op f)) (dynamics np (of_eigs (df_op f)) b (d_opt cfg) 3 0 1 ts) in
      exists c, data c = S /\ frob2 (S - data (df_b f)) != 0].
Proof.
exists ex_np, (ex_cfg false (OptBool true)), (ex_cfg false (OptBool true)), ex_S, (ex_fopt false); split=> //.
- exact: ex_fit_opt.
- by move=> r P q; exact: ex_solve.
- exact: ex_power_spec.
move=> ts Hts data.
have Ht i : ts i = 0 + i%:R * 1 by rewrite Hts add0r mulr1.
pose c := np_lstsq ex_np (of_modes (ex_o false)) (col ord0 ex_S).
have H0 : col_index 3 0 = Some ord0 by rewrite -[0]/(Posz 0) /col_index insubT; congr Some; exact/val_inj.
have R := @ex_recoverable false (OptBool false) ord0 (fun E => Bool.diff_false_true (congr1 (fun o => if o is OptBool b then b else false) E)) H0.
have D : data c = ex_S.
  have Hd : data c = reconstruction (of_modes (ex_o false)) (dynamics ex_np (of_eigs (ex_o false)) c (OptBool false) 3 0 1 ts) by [].
  apply/matrixP=> i k; rewrite Hd.
  have := @recovery_index AC ex_np 2 2 _ _ _ _ _ R (fun E => Bool.diff_false_true (congr1 (fun o => if o is OptBool b then b else false) E))
     (fun k => ex_lstsq false (col k ex_S)) ex_power_spec 0 1 3%N ts k k (oner_neq0 _) (Ht k) (or_intror _).
  move/(_ (lez_nat 0 k)); move/(congr1 (fun M : 'cV[algC]_2 => M i 0)); rewrite mxE => E.
  apply: etrans E _.
  by rewrite -(linear_state k ex_linear) mxE.
exists c; split=> //.
have -> : df_b (ex_fopt false) = (2%:R / 3%:R) *: c by exact: ex_opt_biased.
have -> : data ((2%:R / 3%:R) *: c) = (2%:R / 3%:R) *: data c.
  have EV b : data b = evolution (of_modes (ex_o false)) (of_eigs (ex_o false)) b 3.
    by apply: reconstruction_evolution => //; exact: ex_power_spec.
  rewrite !EV; apply/matrixP=> i k; rewrite [LHS]mxE [RHS]mxE [in RHS]mxE mulr_sumr; apply: eq_bigr=> j _.
  by rewrite [((2%:R / 3%:R) *: c) j 0]mxE mulrCA -!mulrA.
rewrite D -{1}[ex_S]scale1r -scalerBl frob2_eq0 scaler_eq0 negb_or; apply/andP; split.
  by rewrite subr_eq0 eq_sym; apply/eqP=> /(congr1 (fun x => x * 3%:R)); rewrite mulfVK ?pnatr_eq0 // mul1r => /eqP; rewrite eqr_nat.
by apply/eqP=> /matrixP/(_ ord0 ord0); rewrite !mxE /= => /eqP; rewrite oner_eq0.
Qed.
Print Assumptions C53_projected_refuted.

(** a compressed fit with opt=True that succeeds: the identity compression of the swap system *)
Example C53_cdmd_case : exists f : cd_fit AC 2 2 2,
  cdmd_fit ex_np (ex_cfg true (OptBool true)) (CMatrix (1%:M : 'M[AC]_2)) ex_draws ex_S = Ok (existT _ 2%N f).
Proof.
have := @C32_identity AC ex_np (ex_cfg true (OptBool true)) 2 2 ex_draws ex_S erefl erefl erefl erefl.
have NA : c_rescale (d_op (ex_cfg true (OptBool true))) <> RsAuto AC by [].
move/(_ NA).
rewrite ex_fit_opt /cdmd_fit /compression_mx eqxx /= conform_mx_id mul1mx.
by case E: (fit_compressed _ _ _ _) => [f|x] //= _; exists f.
Qed.

(** forward-backward on one compressed measurement growing by the factor four *)
Definition g_np : numpy AC := {|
  np_svd := fun n m X => (\matrix_(i, j) (i == j :> nat)%:R, const_mx (\sum_i \sum_j X i j), \matrix_(i, j) (i == j :> nat)%:R);
  np_rank := fun k _ _ _ _ => ord_max;
  np_eig := fun r A => (\row_j A j j, 1%:M);
  np_sqrtm := fun r M => map_mx sqrtC M;
  np_norm := np_norm ex_np; np_lstsq := np_lstsq ex_np; np_solve := np_solve ex_np;
  np_pinv := np_pinv ex_np; np_power := np_power ex_np |}.
Definition g_S : 'M[AC]_(1, 2) := \matrix_(i, j) 4%:R ^+ j.
Definition g_cfg : dmd_cfg AC :=
  DmdCfg (OpCfg (Model_Utils.RInt (BinNums.Zneg BinNums.xH)) true true (RsNone AC) SoNone None) 0 (OptBool false).
Definition g_draws : draws AC 1 2 := Draws 0 0 0 (fun=> ord0).
Lemma g_lso (X Y : 'M[AC]_(1, 1)) : let o := compute_svd g_np X (c_rank (d_op g_cfg)) in
  least_square_operator None 0 (sv_U o) (sv_s o) (sv_V o) Y = (Y 0 0 / X 0 0)%:M :> 'M_1.
Proof.
move=> o; rewrite ls_op.
have EU : sv_U o = 1%:M :> 'M_1 by rewrite [LHS]take_max; apply/matrixP=> i j; rewrite !mxE.
have EV : sv_V o = 1%:M :> 'M_1 by rewrite [LHS]take_max; apply/matrixP=> i j; rewrite (ord1 i) (ord1 j) ?adjE !mxE ?conjC1.
have Es : sv_s o = const_mx (X 0 0) :> 'rV_1 by rewrite [LHS]take_max; apply/rowP=> j; rewrite !mxE !big_ord1.
rewrite EU EV Es adj1 mul1mx mulmx1; apply/matrixP=> i j; rewrite (ord1 i) (ord1 j).
by rewrite mul_mx_diag !mxE.
Qed.
Example C32_compressed_forward_backward_case :
  let S := 1%:M *m g_S in
  let fw := compute_svd g_np (col' ord_max S) (c_rank (d_op g_cfg)) in
  let bw := compute_svd g_np (col' ord0 S) (c_rank (d_op g_cfg)) in
  let F : 'M_1 := least_square_operator None 0 (sv_U fw) (sv_s fw) (sv_V fw) (col' ord0 S) in
  let B : 'M_1 := least_square_operator None 0 (sv_U bw) (sv_s bw) (sv_V bw) (col' ord_max S) in
  (exists f : cd_fit AC 1 1 1, cdmd_fit g_np g_cfg (CMatrix (1%:M : 'M[AC]_1)) g_draws g_S = Ok (existT _ 1%N f)) /\
  compression_mx g_draws (CMatrix (1%:M : 'M[AC]_1)) = Ok (existT _ 1%N (1%:M : 'M[AC]_1)) /\
  F = 4%:R%:M /\ B = 4%:R^-1%:M /\ sqrtm_ok g_np (F *m invmx B).
Proof.
move=> S fw bw F B.
have E : compression_mx g_draws (CMatrix (1%:M : 'M[AC]_1)) = Ok (existT _ 1%N (1%:M : 'M[AC]_1)).
  by rewrite /compression_mx eqxx conform_mx_id.
have HX : (col' ord_max S) 0 0 = 1 by rewrite /S mul1mx !mxE.
have HY : (col' ord0 S) 0 0 = 4%:R by rewrite /S mul1mx !mxE expr1.
have HF : F = 4%:R%:M by rewrite /F g_lso HX HY divr1.
have HB : B = 4%:R^-1%:M by rewrite /B g_lso HX HY div1r.
have n4 : 4%:R != 0 :> algC by rewrite pnatr_eq0.
have UB : B \in unitmx by rewrite HB unitmxE det_scalar1 unitfE invr_eq0.
split; last split=> //; last split=> //; last split=> //; last first.
  rewrite HF HB invmx_scalar invrK -scalar_mxM /sqrtm_ok /=.
  have -> : map_mx sqrtC (4%:R * 4%:R)%:M = 4%:R%:M :> 'M[algC]_1.
    by apply/matrixP=> i j; rewrite (ord1 i) (ord1 j) !mxE /= !mulr1n -expr2 sqrCK // ler0n.
  by rewrite -scalar_mxM.
rewrite /cdmd_fit E [bind _ _]/= -/S.
suff [f Hf] : exists f, fit_compressed g_np g_cfg g_S S = Ok f by exists f; rewrite Hf.
rewrite /fit_compressed /compute_tlsq eqxx [_.1]/= [_.2]/=.
have [o ->] : exists o, cd_compute_operator g_np (d_op g_cfg) (col' ord_max S) (col' ord0 S) (col' ord0 g_S) = Ok o.
  rewrite /cd_compute_operator /cd_least_squares /= -/fw -/F /cd_forward_backward /= /cd_least_squares /= -/bw -/B UB /=.
  by eexists.
rewrite /cd_amplitudes /amplitudes /=.
by rewrite insubT //=; eexists.
Qed.
