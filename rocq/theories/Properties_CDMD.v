(** * C32: compressed, randomised and forward-backward DMD *)
From mathcomp Require Import all_ssreflect all_algebra all_field.
From Verif Require Import Py LinAlg Model_Operator Spec_Operator Proofs_OpCore Proofs_Operator Proofs_Operator2 Proofs_Recovery Examples_Operator.
From Verif Require Import Model_PrePostAlg Proofs_PrePostAlg Properties_PrePostAlg Model_CDMD Spec_CDMD Proofs_CDMD.
From Verif Require Model_Utils.
Set Implicit Arguments. Unset Strict Implicit. Unset Printing Implicit Defensive.
Import Order.TTheory GRing.Theory Num.Theory.
Local Open Scope ring_scope.

Section C32.
Variable C : numClosedFieldType.
Implicit Type np : numpy C.

(** An identity compression matrix gives the very results of an exact DMD: the same
    exception, or the same reduced operator, eigenvalues, modes and amplitudes; any rank,
    rescaling factors, sorting and amplitude option. *)
Theorem C32_identity np cfg n m (d : draws C n m.+1) (S : 'M[C]_(n, m.+1)) :
  c_exact (d_op cfg) -> d_tlsq cfg = 0 -> c_fb (d_op cfg) = false -> c_tik (d_op cfg) = None ->
  c_rescale (d_op cfg) <> RsAuto C ->
  (let! f := cdmd_fit np cfg (CMatrix (1%:M : 'M_n)) d S in Ok (compressed_result (projT2 f))) =
  (let! g := (fit np cfg S).2 in Ok (dmd_result g)).
Proof.
move=> H1 H2 H3 H4 H5; rewrite -(identity_same np S H1 H2 H3 H4 H5) /cdmd_fit /compression_mx eqxx /=.
by rewrite conform_mx_id mul1mx; case: (fit_compressed _ _ _ _).
Qed.

(** the same for the arguments of the two constructors: CDMD(...) is compared with DMD(..., exact=True) *)
Theorem C32_identity_arguments np n m (d : draws C n m.+1) (S : 'M[C]_(n, m.+1)) rk opt rescale sorted : rescale <> RsAuto C ->
  (let! f := cdmd_fit np (cdmd_cfg rk 0 opt rescale false sorted None) (CMatrix (1%:M : 'M_n)) d S in Ok (compressed_result (projT2 f))) =
  (let! g := (fit np (DmdCfg (OpCfg rk true false rescale sorted None) 0 opt) S).2 in Ok (dmd_result g)).
Proof. by move=> H; exact: C32_identity. Qed.

(** A compression that preserves lengths and angles of the snapshots: the spectrum is that of
    any plain DMD of the same snapshots (whatever SVD either of them used), and the modes are
    eigenvectors of the plain DMD operator. *)
Theorem C32_isometric np np1 cfg cfg1 cfg1' n p m c (d : draws C n m.+1) (K : 'M[C]_(p, n)) (S : 'M[C]_(n, m.+1)) f g :
  cdmd_fit np cfg c d S = Ok (existT _ p f) -> compression_mx d c = Ok (existT _ p K) ->
  plain_compressed np cfg (K *m S) f -> all_kept (K *m S) f ->
  isometric K S -> plain_dmd np1 cfg1 cfg1' S g ->
  same_spectrum (cd_Atilde (cf_op f)) (of_Atilde (df_op g)) /\
  eigenpairs (dmd_map (col' ord0 S) (of_U (df_op g)) (of_s (df_op g)) (of_V (df_op g))) (cd_eigs (cf_op f)) (cd_modes (cf_op f)).
Proof. by move=> H E; apply: isometric_same; exact: (cdmd_fit_inv H E). Qed.

(** ... with truncation: the factors kept, carried back by the adjoint of the compression,
    are singular triplets of the snapshots, and the eigenpairs are those of the rank-r DMD
    operator they define. *)
Theorem C32_isometric_truncated np cfg n p m c (d : draws C n m.+1) (K : 'M[C]_(p, n)) (S : 'M[C]_(n, m.+1)) f :
  cdmd_fit np cfg c d S = Ok (existT _ p f) -> compression_mx d c = Ok (existT _ p K) ->
  plain_compressed np cfg (K *m S) f -> isometric K S -> (forall j, cd_s (cf_op f) 0 j != 0) ->
  let X := col' ord_max S in let o := cf_op f in let U := adj K *m cd_U o in
  [/\ adj U *m U = 1%:M /\ adj (cd_V o) *m cd_V o = 1%:M, X *m cd_V o = U *m diag_mx (cd_s o),
      adj U *m X = diag_mx (cd_s o) *m adj (cd_V o),
      cd_Atilde o = adj U *m dmd_map (col' ord0 S) U (cd_s o) (cd_V o) *m U &
      eigenpairs (dmd_map (col' ord0 S) U (cd_s o) (cd_V o)) (cd_eigs o) (cd_modes o)].
Proof. by move=> H E; apply: isometric_truncated; exact: (cdmd_fit_inv H E). Qed.

(** Any compression that loses nothing of the snapshots, when every later snapshot is a
    combination of the earlier ones: again the spectrum and operator of plain DMD. *)
Theorem C32_lossless np np1 cfg cfg1 cfg1' n p m c (d : draws C n m.+1) (K : 'M[C]_(p, n)) (S : 'M[C]_(n, m.+1)) f g a :
  cdmd_fit np cfg c d S = Ok (existT _ p f) -> compression_mx d c = Ok (existT _ p K) ->
  plain_compressed np cfg (K *m S) f -> all_kept (K *m S) f ->
  lossless K S -> col' ord0 S = col' ord_max S *m a -> plain_dmd np1 cfg1 cfg1' S g ->
  same_spectrum (cd_Atilde (cf_op f)) (of_Atilde (df_op g)) /\
  eigenpairs (dmd_map (col' ord0 S) (of_U (df_op g)) (of_s (df_op g)) (of_V (df_op g))) (cd_eigs (cf_op f)) (cd_modes (cf_op f)).
Proof. by move=> H E; apply: lossless_same; exact: (cdmd_fit_inv H E). Qed.

(** ... and on the snapshots of a linear system, eigenvalues and eigenvectors of that system. *)
Theorem C32_linear np cfg n p m c (d : draws C n m.+1) (K : 'M[C]_(p, n)) (S : 'M[C]_(n, m.+1)) f (B : 'M[C]_n) a :
  cdmd_fit np cfg c d S = Ok (existT _ p f) -> compression_mx d c = Ok (existT _ p K) ->
  plain_compressed np cfg (K *m S) f -> all_kept (K *m S) f ->
  lossless K S -> linear_data B S -> col' ord0 S = col' ord_max S *m a ->
  eigenpairs B (cd_eigs (cf_op f)) (cd_modes (cf_op f)).
Proof. by move=> H E; apply: lossless_linear; exact: (cdmd_fit_inv H E). Qed.

(** 'sample' keeps measurements: row [i] of the compressed snapshots is row [choice i] of the
    snapshots, and distinct choices give orthonormal rows.  It needs at least as many
    measurements as snapshots. *)
Theorem C32_sample n m (d : draws C n m.+1) (S : 'M[C]_(n, m.+1)) :
  ((m.+1 <= n)%N -> exists K : 'M[C]_(m.+1, n), compression_mx d (CSample C) = Ok (existT _ m.+1 K) /\
     (forall i, row i (K *m S) = row (dr_choice d i) S) /\ (injective (dr_choice d) -> K *m adj K = 1%:M)) /\
  ((n < m.+1)%N -> compression_mx d (CSample C) = Err ValueError).
Proof.
split=> H.
- exists (sample_mx C (dr_choice d)); rewrite /compression_mx H; split=> //; split; last exact: sample_orth.
  by move=> i; exact: sample_rows.
- by rewrite /compression_mx leqNgt H.
Qed.

(** the amplitudes express the chosen snapshot, uncompressed, in the modes *)
Theorem C32_amplitudes np cfg n m c (d : draws C n m.+1) (S : 'M[C]_(n, m.+1)) p (f : cd_fit C n p m) (z : int) :
  cdmd_fit np cfg c d S = Ok (existT _ p f) -> d_opt cfg = OptInt z \/ (d_opt cfg = OptBool false /\ z = 0) ->
  exists j : 'I_m.+1, (j = (if 0 <= z then z else m.+1%:Z + z) :> int) /\
    (lstsq_ok np (cd_modes (cf_op f)) (col j S) -> is_lstsq (cd_modes (cf_op f)) (col j S) (cf_b f)).
Proof. exact: cdmd_amplitudes. Qed.

(** what CDMD (and RDMD) cannot do, for every data set: Tikhonov regularisation, automatic
    rescaling, an unknown name, a matrix of the wrong width *)
Theorem C32_refusals np cfg n m (d : draws C n m.+1) (S : 'M[C]_(n, m.+1)) :
  [/\ (forall c l, c_tik (d_op cfg) = Some l -> forall p (f : cd_fit C n p m), cdmd_fit np cfg c d S <> Ok (existT _ p f)),
      (forall l p (K : 'M[C]_(p, n)), c_tik (d_op cfg) = Some l -> cdmd_fit np cfg (CMatrix K) d S = Err TypeError),
      (forall c, c_rescale (d_op cfg) = RsAuto C -> forall p (f : cd_fit C n p m), cdmd_fit np cfg c d S <> Ok (existT _ p f)),
      cdmd_fit np cfg (CUnknown C) d S = Err UnboundLocalError &
      forall p q (K : 'M[C]_(p, q)), q <> n -> cdmd_fit np cfg (CMatrix K) d S = Err ValueError].
Proof.
split=> //.
- by move=> c l H p f; rewrite /cdmd_fit; case: (compression_mx _ _)=> [K|x] //=; rewrite (compressed_tik _ _ _ H).
- by move=> l p K H; rewrite /cdmd_fit /compression_mx eqxx /= (compressed_tik _ _ _ H).
- move=> c H p f; rewrite /cdmd_fit; case: (compression_mx _ _)=> [K|x] //=.
  case E: (fit_compressed _ _ _ _)=> [f'|x] //= _; exact: (compressed_auto_fb H E).
- by move=> p q K /eqP/negbTE H; rewrite /cdmd_fit /compression_mx H.
Qed.

(** The documented 'auto' rescaling: a plain fit accepts it, the compressed one never does. *)
Theorem C32_auto_refuted np cfg n m c (d : draws C n m.+1) (S : 'M[C]_(n, m.+1)) K :
  c_tik (d_op cfg) = None -> c_fb (d_op cfg) = false -> c_rescale (d_op cfg) = RsAuto C ->
  compression_mx d c = Ok K -> cdmd_fit np cfg c d S = Err ValueError.
Proof. by move=> T F R E; rewrite /cdmd_fit E /= (compressed_auto _ _ _ T F R). Qed.

(** ** RDMD *)

(** When the sampled range holds the snapshots, the range finder gives an orthonormal [Q] with
    Q Q* X = X, and RDMD has the spectrum and operator of plain DMD. *)
Theorem C32_rdmd np np1 cfg cfg1 cfg1' qr n m (gen : forall l, 'M[C]_(m.+1, l)) t (S : 'M[C]_(n, m.+1)) p (f : cd_fit C n p m)
    l (Om : 'M[C]_(m.+1, l)) (Q : 'M[C]_(n, p)) g :
  rdmd_fit np cfg qr gen t S = (Some (existT _ m.+1 (existT _ l Om)), Ok (existT _ p f)) ->
  rqb_Q qr S Om (rd_iters cfg) = existT _ p Q ->
  rqb_calls qr S Om (rd_iters cfg) -> qr_ok qr (projT2 (rqb_sketch qr S Om (rd_iters cfg))) ->
  (exists c, S = S *m Om *m c) ->
  plain_compressed np (rd_cfg_ cfg) (adj Q *m S) f -> all_kept (adj Q *m S) f -> plain_dmd np1 cfg1 cfg1' S g ->
  [/\ adj Q *m Q = 1%:M, Q *m (adj Q *m S) = S,
      same_spectrum (cd_Atilde (cf_op f)) (of_Atilde (df_op g)) &
      eigenpairs (dmd_map (col' ord0 S) (of_U (df_op g)) (of_s (df_op g)) (of_V (df_op g))) (cd_eigs (cf_op f)) (cd_modes (cf_op f))].
Proof.
move=> H EQ Hc Hq Hs HP HK HD; rewrite -(adjK Q) in EQ.
have [HI QQ F] := rdmd_isometric H EQ Hc Hq Hs.
have [A B] := isometric_same F HP HK HI HD.
by split=> //; [rewrite adjK in QQ | move: HI; rewrite /isometric adjK].
Qed.

(** A first fit draws the test matrix: as many rows as snapshots, rank plus oversampling columns. *)
Theorem C32_rdmd_draw np cfg qr n m (gen : forall l, 'M[C]_(m.+1, l)) (S : 'M[C]_(n, m.+1)) :
  let r := np_rank np (np_svd np S).1.2 n m.+1 (c_rank (d_op (rd_cfg_ cfg))) in
  (rdmd_fit np cfg qr gen None S).1 = Some (existT _ m.+1 (existT _ (r + rd_oversampling cfg)%N (gen (r + rd_oversampling cfg)%N))).
Proof. by rewrite /rdmd_fit /= eqxx. Qed.

(** From then on the instance keeps it: later fits ignore the generator, and data with another
    number of snapshots are refused (a fresh instance would accept them). *)
Theorem C32_rdmd_keeps_test_matrix np cfg qr n m (gen gen' : forall l, 'M[C]_(m.+1, l)) T (S : 'M[C]_(n, m.+1)) :
  [/\ (rdmd_fit np cfg qr gen (Some T) S).1 = Some T,
      rdmd_fit np cfg qr gen (Some T) S = rdmd_fit np cfg qr gen' (Some T) S &
      projT1 T <> m.+1 -> rdmd_fit np cfg qr gen (Some T) S = (Some T, Err ValueError)].
Proof.
split=> //; first exact: rdmd_keeps.
by move=> /eqP H; rewrite /rdmd_fit /= H.
Qed.
Theorem C32_rdmd_refit_refuted np cfg qr n m (gen : forall l, 'M[C]_(m.+1, l)) (S : 'M[C]_(n, m.+1))
    n' m' (gen' : forall l, 'M[C]_(m'.+1, l)) (S' : 'M[C]_(n', m'.+1)) : m <> m' ->
  let t := (rdmd_fit np cfg qr gen None S).1 in
  (rdmd_fit np cfg qr gen' t S').2 = Err ValueError /\
  (rdmd_fit np cfg qr gen' None S').1 <> None.
Proof.
move=> H t; split; last by rewrite C32_rdmd_draw.
by rewrite /t C32_rdmd_draw {1}/rdmd_fit [projT1 _]/=; case: eqP => // -[].
Qed.

(** ** FbDMD: the square of the operator, times the backward operator, is the forward one,
    both being the operators of plain DMDs at the same rank *)
Theorem C32_forward_backward np n m rk tlsq exact opt rs so cfg' (S : 'M[C]_(n, m.+1)) f :
  let cfg := fbdmd_cfg rk tlsq exact opt rs so in
  fit np cfg S = (cfg', Ok f) ->
  let XY := compute_tlsq np (col' ord_max S) (col' ord0 S) tlsq in
  let X := XY.1 in let Y := XY.2 in
  let r := np_rank np (np_svd np X).1.2 n m rk in
  let F := least_square_operator None 0 (take_cols (np_svd np X).1.1 r) (take_cols (np_svd np X).1.2 r) (take_cols (adj (np_svd np X).2) r) Y in
  let B := least_square_operator None 0 (take_cols (np_svd np Y).1.1 r) (take_cols (np_svd np Y).1.2 r) (take_cols (adj (np_svd np Y).2) r) X in
  B \in unitmx /\ exists A : 'M[C]_r, existT (fun k => 'M[C]_k) (r : nat) A = existT _ (of_r (df_op f)) (of_Atilde (df_op f)) /\
    (sqrtm_ok np (F *m invmx B) -> A *m A *m B = F).
Proof. exact: fb_square. Qed.
End C32.

(** ** A concrete case: the swap system of Examples_Operator.v, compressed by [a] times the swap *)
Local Notation AC := algCnumClosedField.
Section Example.
Variable a : nat.
Hypothesis a0 : (0 < a)%N.
Definition ex_K : 'M[AC]_2 := a%:R *: swap2.
Definition ex_cnp : numpy AC := {|
  np_svd := fun n m X => (\matrix_(i, j) (i != j :> nat)%:R, const_mx a%:R, \matrix_(i, j) (i == j :> nat)%:R);
  np_rank := np_rank ex_np; np_eig := np_eig ex_np; np_sqrtm := np_sqrtm ex_np; np_norm := np_norm ex_np;
  np_lstsq := np_lstsq ex_np; np_solve := np_solve ex_np; np_pinv := np_pinv ex_np; np_power := np_power ex_np |}.
Definition ex_draws : draws AC 2 3 := Draws 0 0 0 (fun=> ord0).
Definition ex_ccfg : dmd_cfg AC := ex_cfg true (OptBool false).
Definition ex_co : cd_op AC 2 2 2 :=
  let X := col' ord_max (ex_K *m ex_S) in let Y := col' ord0 (ex_K *m ex_S) in
  let U := take_cols (np_svd ex_cnp X).1.1 ord_max in let s := take_cols (np_svd ex_cnp X).1.2 ord_max in
  let V := take_cols (adj (np_svd ex_cnp X).2) ord_max in
  let A := least_square_operator None 0 U s V Y in
  let l := eig_pairs (np_eig ex_np A).1 (np_eig ex_np A).2 in
  CdOp U s V A (pairs_eigs l) (pairs_vecs l) (compute_modes (d_op ex_ccfg) 0 (col' ord0 ex_S) 0 s V (pairs_vecs l)).
Definition ex_cf : cd_fit AC 2 2 2 := @CdFit AC 2 2 2 ex_co (np_lstsq ex_np (cd_modes ex_co) (col ord0 ex_S)).

Lemma ex_compressed : fit_compressed ex_cnp ex_ccfg ex_S (ex_K *m ex_S) = Ok ex_cf.
Proof.
have -> : fit_compressed ex_cnp ex_ccfg ex_S (ex_K *m ex_S) =
  let! b := cd_amplitudes ex_cnp (OptBool false) ex_S ex_co in Ok (@CdFit AC 2 2 2 ex_co b) by [].
rewrite /cd_amplitudes /amplitudes; have -> : col_index 3 0 = Some ord0 by rewrite -[0]/(Posz 0) /col_index insubT; congr Some; exact/val_inj.
by [].
Qed.
Lemma ex_swapd : (\matrix_(i < 2, j < 2) (i != j :> nat)%:R) = swap2.
Proof. by apply/matrixP=> i j; rewrite !mxE. Qed.
Lemma swap_sym : adj swap2 = swap2.
Proof. by apply/matrixP=> i j; rewrite adjE !mxE rmorph_nat eq_sym. Qed.
Lemma swap_sq : swap2 *m swap2 = 1%:M.
Proof. by rewrite -{1}swap_sym swap_unitary. Qed.
Lemma an0 : a%:R != 0 :> algC.
Proof. by rewrite pnatr_eq0 -lt0n. Qed.
Lemma ex_cX : col' ord_max (ex_K *m ex_S) = a%:R *: swap2.
Proof. by rewrite col'_mul ex_X mulmx1. Qed.
Lemma ex_cY : col' ord0 (ex_K *m ex_S) = a%:R%:M.
Proof. by rewrite col'_mul ex_Y -scalemxAl swap_sq scalemx1. Qed.
Lemma ex_cU : cd_U ex_co = swap2.
Proof. by rewrite [LHS]/= take_max ex_swapd. Qed.
Lemma ex_cs : cd_s ex_co = const_mx a%:R.
Proof. by rewrite [LHS]/= take_max. Qed.
Lemma ex_cV : cd_V ex_co = 1%:M.
Proof. by rewrite [LHS]/= take_max ex_delta adj1. Qed.
Lemma recipa : recip (const_mx a%:R : 'rV[AC]_2) = const_mx a%:R^-1.
Proof. by apply/rowP=> j; rewrite !mxE. Qed.
Lemma ex_cA : cd_Atilde ex_co = swap2.
Proof.
have -> : cd_Atilde ex_co = least_square_operator None 0 (cd_U ex_co) (cd_s ex_co) (cd_V ex_co) (col' ord0 (ex_K *m ex_S)) by [].
rewrite ls_op ex_cU ex_cs ex_cV ex_cY mulmx1 swap_sym /= recipa diag_const_mx -mulmxA -scalar_mxM divff ?an0 // mulmx1 //.
Qed.
Lemma ex_csvd : svd_ok ex_cnp (a%:R *: swap2).
Proof.
split=> /=; rewrite ?ex_swapd ?ex_delta.
- by rewrite diag_const_mx mulmx1 mul_mx_scalar.
- exact: swap_unitary.
- by rewrite adj1 mulmx1.
- by move=> j; rewrite mxE ler0n.
- by move=> i j _; rewrite !mxE.
Qed.

Example C32_fits : cdmd_fit ex_cnp ex_ccfg (CMatrix ex_K) ex_draws ex_S = Ok (existT _ 2%N ex_cf) /\
  compression_mx ex_draws (CMatrix ex_K) = Ok (existT _ 2%N ex_K).
Proof.
have E : compression_mx ex_draws (CMatrix ex_K) = Ok (existT _ 2%N ex_K).
  by rewrite /compression_mx eqxx conform_mx_id.
split; last exact: E.
transitivity (let! f := fit_compressed ex_cnp ex_ccfg ex_S (ex_K *m ex_S) in Ok (existT (fun p => cd_fit AC 2 p 2) 2%N f)).
  by rewrite /cdmd_fit E.
by rewrite ex_compressed.
Qed.
Example C32_plain : plain_compressed ex_cnp ex_ccfg (ex_K *m ex_S) ex_cf /\ all_kept (ex_K *m ex_S) ex_cf.
Proof.
split.
- split=> //; first by rewrite ex_cX; exact: ex_csvd.
  by rewrite ex_cA => Ah [<-]; exact: ex_eig_ok.
- rewrite /all_kept ex_cX ex_cU ex_cs ex_cV; split; last by move=> j; rewrite mxE an0.
  by rewrite adj1 mulmx1 diag_const_mx mul_mx_scalar.
Qed.
Example C32_loses_nothing : lossless ex_K ex_S /\ (a = 1%N -> isometric ex_K ex_S) /\
  linear_data swap2 ex_S /\ col' ord0 ex_S = col' ord_max ex_S *m swap2.
Proof.
split; first by exists (a%:R^-1 *: swap2); rewrite /ex_K mulmxA -scalemxAl -scalemxAr scalerA mulVf ?an0 // scale1r swap_sq mul1mx.
split; last by split; [exact: ex_linear | rewrite ex_X ex_Y mul1mx].
by move=> E; rewrite /isometric /ex_K E scale1r mulmxA swap_sym swap_sq mul1mx.
Qed.
Example C32_other_fit : plain_dmd ex_np ex_ccfg ex_ccfg ex_S (ex_f true ord0).
Proof.
split=> //; first by apply: ex_fit => //; rewrite -[0]/(Posz 0) /col_index insubT; congr Some; exact/val_inj.
- by rewrite ex_X; exact: ex_svd.
- rewrite ex_X; split; first by rewrite ex_U ex_V ex_s diag_const_mx adj1 !mulmx1.
  by move=> j; rewrite ex_s mxE oner_neq0.
Qed.
End Example.

(** RDMD with the test matrix that selects the first two snapshots *)
Definition ex_Om : 'M[AC]_(3, 2) := \matrix_(i, j) (i == j :> nat)%:R.
Lemma ex_SOm : ex_S *m ex_Om = 1%:M.
Proof.
apply/matrixP=> i j; rewrite !mxE !big_ord_recl big_ord0 !mxE.
by move: i j; apply: ord2P; apply: ord2P; rewrite /= ?mul0r ?mulr0 ?mul1r ?addr0 ?add0r.
Qed.
Definition ex_rcfg : rd_cfg AC := RdCfg ex_ccfg 0 0.
Definition ex_ro : cd_op AC 2 2 2 := let o := ex_o true in
  CdOp (of_U o) (of_s o) (of_V o) (of_Atilde o) (of_eigs o) (of_vecs o) (of_modes o).
Definition ex_rf : cd_fit AC 2 2 2 := @CdFit AC 2 2 2 ex_ro (np_lstsq ex_np (cd_modes ex_ro) (col ord0 ex_S)).
Lemma ex_rfit : fit_compressed ex_np ex_ccfg ex_S ex_S = Ok ex_rf.
Proof.
have -> : fit_compressed ex_np ex_ccfg ex_S ex_S =
  let! b := cd_amplitudes ex_np (OptBool false) ex_S ex_ro in Ok (@CdFit AC 2 2 2 ex_ro b) by [].
rewrite /cd_amplitudes /amplitudes; have -> : col_index 3 0 = Some ord0 by rewrite -[0]/(Posz 0) /col_index insubT; congr Some; exact/val_inj.
by [].
Qed.
Example C32_rdmd_case (gen : forall l, 'M[AC]_(3, l)) :
  let T := existT _ 3%N (existT _ 2%N ex_Om) : {q : nat & {l : nat & 'M[AC]_(q, l)}} in
  [/\ rdmd_fit ex_np ex_rcfg ex_qr gen (Some T) ex_S = (Some T, Ok (existT _ 2%N ex_rf)),
      rqb_Q ex_qr ex_S ex_Om 0 = existT _ 2%N 1%:M, qr_ok ex_qr (projT2 (rqb_sketch ex_qr ex_S ex_Om 0)),
      exists c, ex_S = ex_S *m ex_Om *m c &
      plain_compressed ex_np ex_ccfg (adj 1%:M *m ex_S) ex_rf /\ all_kept (adj 1%:M *m ex_S) ex_rf].
Proof.
move=> T; have EQ : rqb_Q ex_qr ex_S ex_Om 0 = existT _ 2%N 1%:M.
  by rewrite /rqb_Q /rqb_sketch /= ex_SOm ex_qr1.
split; [|exact: EQ| | |].
- rewrite (@rdmd_fitE AC ex_np ex_rcfg ex_qr 2 2 gen (Some T) ex_S 2 ex_Om (erefl _)) EQ; congr pair; cbv zeta.
  rewrite [projT1 _]/=.
  have -> : adj (projT2 (existT [eta matrix AC 2] 2%N 1%:M)) *m ex_S = ex_S by rewrite [projT2 _]/= adj1 mul1mx.
  by rewrite [X in bind X _]ex_rfit.
- by rewrite /= ex_SOm; apply: ex_qr_ok.
- by exists ex_S; rewrite ex_SOm mul1mx.
- have -> : adj 1%:M *m ex_S = ex_S by rewrite adj1 mul1mx.
  split.
  + split=> //; first by rewrite ex_X; exact: ex_svd.
    have -> : cd_Atilde (cf_op ex_rf) = of_Atilde (ex_o true) by [].
    by rewrite ex_Atilde => Ah [<-]; exact: ex_eig_ok.
  + have [_ _ _ _ _ H] := C32_other_fit; exact: H.
Qed.

Print Assumptions C32_identity.
Print Assumptions C32_identity_arguments.
Print Assumptions C32_isometric.
Print Assumptions C32_isometric_truncated.
Print Assumptions C32_lossless.
Print Assumptions C32_linear.
Print Assumptions C32_sample.
Print Assumptions C32_amplitudes.
Print Assumptions C32_refusals.
Print Assumptions C32_auto_refuted.
Print Assumptions C32_rdmd.
Print Assumptions C32_rdmd_draw.
Print Assumptions C32_rdmd_keeps_test_matrix.
Print Assumptions C32_rdmd_refit_refuted.
Print Assumptions C32_forward_backward.
