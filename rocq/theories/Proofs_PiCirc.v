(** * Lemmas for C33: circulant, block-circulant, Toeplitz, Hankel and symmetric tridiagonal manifolds *)
From mathcomp Require Import all_ssreflect all_algebra.
From Verif Require Import Py LinAlg Model_Operator Spec_Operator Model_PiDMD Spec_PiDMD Proofs_PiAlg Proofs_PiDMD Proofs_PiDft.
Set Implicit Arguments. Unset Strict Implicit. Unset Printing Implicit Defensive.
Import Order.TTheory GRing.Theory Num.Theory.
Local Open Scope ring_scope.

Section Circ.
Variables (C : numClosedFieldType) (np : numpy C) (pn : pi_numpy C).

Lemma conj_mxM a b c (A : 'M[C]_(a, b)) (B : 'M[C]_(b, c)) : conj_mx (A *m B) = conj_mx A *m conj_mx B.
Proof. exact: map_mxM. Qed.
Lemma conj_mxK a b : involutive (@conj_mx C a b).
Proof. by move=> A; apply/matrixP=> i j; rewrite !mxE conjCK. Qed.
Lemma conj_real a b (A : 'M[C]_(a, b)) : real_mx A -> conj_mx A = A.
Proof. by move=> H; apply/matrixP=> i j; rewrite mxE conj_Creal. Qed.
Lemma adj_sym a (T : 'M[C]_a) : T^T = T -> adj T = conj_mx T.
Proof. by move=> H; rewrite /adj map_trmx H. Qed.
Lemma conj_adj a b (A : 'M[C]_(a, b)) : conj_mx (adj A) = A^T.
Proof. by apply/matrixP=> i j; rewrite !mxE conjCK. Qed.

Lemma zconjE a b x (A : 'M[C]_(a, b)) i j : (x *: conj_mx A) i j = x * (A i j)^*.
Proof. by rewrite !mxE. Qed.

(** ** One eigenvalue per coordinate of a unitary transform *)
Lemma transform_best o n m (P : 'M[C]_n -> Prop) (T : 'M[C]_n) (X Y : 'M[C]_(n, m)) (c d : 'rV[C]_n) :
  T *m adj T = 1%:M ->
  (forall B, P B -> forall k l, k != l -> (T *m B *m adj T) k l = 0) ->
  P (adj T *m diag_mx d *m T) ->
  (forall l, c 0 l * row_norm2 (T *m X) l = \sum_t ((T *m X) l t)^* * (T *m Y) l t) ->
  (forall l, d 0 l = apply_opt o (c 0 l)) ->
  best (fun A => P A /\ opt_holds o A) X Y (adj T *m diag_mx d *m T).
Proof.
move=> TT off pA Hc Hd; apply: (unitary_best (Q := diag_adm o (n := n))) => //.
- by move=> B [pB oB]; apply: (diag_adm_of TT erefl _ oB); apply: off.
- by split=> //; apply: diag_conj => // l; rewrite Hd; apply: opt_admissible.
- exact: diag_best.
Qed.

(** ** The model's transforms *)
Section OneDim.
Variable N : nat.
Hypothesis HR : root_ok pn N.
Let s : C := sqrtC N%:R.
Definition TF : 'M[C]_N := Fdft (pi_root pn N)^-1 N.
Let G := good_inv (prim_good HR).
Lemma N_pos : (0 < N)%N. Proof. exact: gr_pos G. Qed.
Lemma s_neq0 : s != 0.
Proof. by rewrite sqrtC_eq0 pnatr_eq0 -lt0n N_pos. Qed.
Lemma s_sq : s * s = N%:R.
Proof. by rewrite -expr2 sqrtCK. Qed.
Lemma TF_sym : TF^T = TF.
Proof. by apply/matrixP=> i j; rewrite !mxE mulnC. Qed.
Lemma TF_unitary : TF *m adj TF = 1%:M.
Proof. exact: (Fdft_unitary G). Qed.
Lemma dftE : dft pn N = s *: adj TF.
Proof.
apply/matrixP=> i j; rewrite mxE [in RHS]mxE adjE !mxE rmorphM /= (good_conj G) invrK mulrA.
by rewrite geC0_conj ?invr_ge0 ?sqrtC_ge0 ?ler0n // mulfV ?s_neq0 // mul1r mulnC.
Qed.
Lemma idftE : idft pn N = s^-1 *: TF.
Proof. by apply/matrixP=> i j; rewrite !mxE mulrC mulrA -invfM s_sq. Qed.
Lemma dft_idft (M : 'M[C]_N) : dft pn N *m M *m idft pn N = adj TF *m M *m TF.
Proof. by rewrite dftE idftE -scalemxAl -scalemxAl -scalemxAr scalerA mulfV ?s_neq0 // scale1r. Qed.
Lemma idft_sym : (idft pn N)^T = idft pn N.
Proof. by rewrite idftE linearZ /= TF_sym. Qed.
Lemma dft_conj m (M : 'M[C]_(N, m)) : dft pn N *m conj_mx M = s *: conj_mx (TF *m M).
Proof. by rewrite dftE -scalemxAl (adj_sym TF_sym) conj_mxM. Qed.
End OneDim.

(** ** circulant *)
Section Circulant.
Variables (n m : nat) (X Y : 'M[C]_(n, m)).
Hypothesis HR : root_ok pn n.
Lemma circ_matrix e : dft pn n *m (scale_cols (idft pn n *m 1%:M)^T e)^T = adj (TF n) *m diag_mx e *m TF n.
Proof. by rewrite mulmx1 idft_sym // scale_colsE trmx_mul tr_diag_mx idft_sym // mulmxA dft_idft. Qed.
Lemma circ_coeff l : real_mx X -> row_norm2 (circ_fX pn X) l != 0 ->
  (row_dot (circ_fX pn X) (circ_fY pn Y) l / row_norm2 (circ_fX pn X) l) * row_norm2 (TF n *m X) l =
  \sum_t ((TF n *m X) l t)^* * (TF n *m Y) l t.
Proof.
move=> rX nz.
have fX : circ_fX pn X = sqrtC n%:R *: conj_mx (TF n *m X) by rewrite /circ_fX -{1}(conj_real rX) dft_conj.
have fY : circ_fY pn Y = sqrtC n%:R *: conj_mx (TF n *m Y) by rewrite /circ_fY dft_conj.
have s0 : 0 <= sqrtC n%:R :> C by rewrite sqrtC_ge0 ler0n.
have D : row_dot (circ_fX pn X) (circ_fY pn Y) l = n%:R * \sum_t ((TF n *m X) l t)^* * (TF n *m Y) l t.
  rewrite /row_dot fX fY mulr_sumr; apply: eq_bigr=> t _.
  rewrite !zconjE rmorphM /= conjCK (geC0_conj s0) mulrACA s_sq //.
have E : row_norm2 (circ_fX pn X) l = n%:R * row_norm2 (TF n *m X) l.
  rewrite /row_norm2 fX mulr_sumr; apply: eq_bigr=> t _.
  by rewrite !zconjE normrM norm_conjC exprMn ger0_norm // sqrtCK.
move: nz; rewrite E mulf_eq0 negb_or => /andP[n0 nz].
by rewrite D invfM mulrACA mulfV // mul1r mulfVK.
Qed.
Lemma circ_is_circ e : is_circulant (adj (TF n) *m diag_mx e *m TF n).
Proof. exact: diag_circ (good_inv (prim_good HR)) _. Qed.
Lemma zero_out0 (e : 'rV[C]_n) : zero_out set0 e = e.
Proof. by apply/rowP=> l; rewrite mxE in_set0. Qed.
Lemma circ_best o : real_mx X -> (forall l, row_norm2 (circ_fX pn X) l != 0) ->
  best (fun A => is_circulant A /\ opt_holds o A) X Y (adj (TF n) *m diag_mx (circ_eigs pn X Y o) *m TF n).
Proof.
move=> rX nz.
apply: (transform_best (c := \row_l (row_dot (circ_fX pn X) (circ_fY pn Y) l / row_norm2 (circ_fX pn X) l))).
- exact: TF_unitary.
- by move=> B cB; apply: (circ_diag (good_inv (prim_good HR))).
- exact: circ_is_circ.
- by move=> l; rewrite [(\row__ _) _ _]mxE circ_coeff.
- by move=> l; rewrite !mxE.
Qed.
End Circulant.

(** ** block circulant with circulant blocks *)
Section Bccb.
Variables (n m p q : nat) (X Y : 'M[C]_(n, m)).
Hypotheses (HP : root_ok pn p) (HQ : root_ok pn q) (npq : (p * q)%N = n).
Let Gp := good_inv (prim_good HP).
Let Gq := good_inv (prim_good HQ).
Definition TFF : 'M[C]_n := Ffft2 n p (pi_root pn p)^-1 (pi_root pn q)^-1.
Let F := fft2_mx pn n p q.
Lemma TFF_unitary : TFF *m adj TFF = 1%:M.
Proof. exact: (Ffft2_unitary (gr_pos Gp) (gr_pos Gq) npq Gp Gq). Qed.
Lemma fft2_conj : conj_mx F = TFF.
Proof.
apply/matrixP=> i j; rewrite Ffft2E !mxE !rmorphM /= geC0_conj ?invr_ge0 ?sqrtC_ge0 ?ler0n //; congr (_ * (_ * _)).
  by rewrite (good_conj (prim_good HP)).
by rewrite (good_conj (prim_good HQ)).
Qed.
Lemma fft2_sym : F^T = F.
Proof. by apply/matrixP=> i j; rewrite !mxE mulnC; congr (_ * (_ * _)); rewrite mulnC. Qed.
Lemma fft2_adj : adj F = TFF.
Proof. by rewrite (adj_sym fft2_sym) fft2_conj. Qed.
Lemma fft2_mul k (M : 'M[C]_(n, k)) : F *m conj_mx M = conj_mx (TFF *m M).
Proof. by rewrite conj_mxM -fft2_conj conj_mxK. Qed.
Lemma bccb_matrix (d : 'rV[C]_n) :
  F *m (scale_cols (adj (F *m 1%:M)) (conj_mx d))^T = adj TFF *m diag_mx (conj_mx d) *m TFF.
Proof.
rewrite mulmx1 scale_colsE trmx_mul tr_diag_mx fft2_adj mulmxA; congr (_ *m _ *m _).
  by rewrite -fft2_adj adjK.
by rewrite -fft2_conj /conj_mx map_trmx fft2_sym.
Qed.
Lemma bccb_is e : is_bccb p q (adj TFF *m diag_mx e *m TFF).
Proof. exact: (diag_bccb Gp Gq). Qed.
Lemma apply_opt_conj o (z : C) : (apply_opt o z^*)^* = apply_opt o z.
Proof.
case: o => /=; first by rewrite conjCK.
- rewrite /unit_phase conjC_eq0; case: eqP => _; first by rewrite rmorph1.
  by rewrite rmorphM fmorphV /= conjCK norm_conjC (conj_Creal (normr_real _)).
- by rewrite Re_conj (conj_Creal (Creal_Re _)).
- by rewrite Im_conj rmorphM rmorphN /= conjCi (conj_Creal (Creal_Im _)) mulrNN.
Qed.
Definition bccb_eigs o : 'rV[C]_n := \row_j bccb_eig np o (row j (F *m conj_mx X)) (row j (F *m conj_mx Y)).
Lemma bccb_coeff o (l : 'I_n) : row_norm2 (F *m conj_mx X) l != 0 ->
  lstsq_ok np (row l (F *m conj_mx X))^T (row l (F *m conj_mx Y))^T ->
  let c := (\sum_t ((TFF *m X) l t)^* * (TFF *m Y) l t) / row_norm2 (TFF *m X) l in
  row_norm2 (TFF *m X) l != 0 /\ (bccb_eigs o 0 l)^* = apply_opt o c.
Proof.
move=> nz H c.
have N2 : row_norm2 (F *m conj_mx X) l = row_norm2 (TFF *m X) l.
  by rewrite fft2_mul; apply: eq_bigr=> t _; rewrite mxE norm_conjC.
split; first by rewrite -N2.
have nr : (row_norm2 (TFF *m X) l)^* = row_norm2 (TFF *m X) l.
  by rewrite geC0_conj // sumr_ge0 // => t _; rewrite exprn_ge0.
have cc : c^* = (\sum_t (TFF *m X) l t * ((TFF *m Y) l t)^*) / row_norm2 (TFF *m X) l.
  rewrite rmorphM fmorphV /= nr; congr (_ / _).
  by rewrite rmorph_sum; apply: eq_bigr=> t _; rewrite rmorphM /= conjCK.
have lsq : np_lstsq np (row l (F *m conj_mx X))^T (row l (F *m conj_mx Y))^T 0 0 = c^*.
  move: H; rewrite /lstsq_ok /is_lstsq; set x := np_lstsq _ _ _ => /(congr1 (fun M : 'M_1 => M 0 0)).
  rewrite !mxE big_ord1 => E; rewrite cc; apply: (mulIf nz); rewrite {2}N2 mulfVK -?N2 //.
  rewrite mulrC (_ : row_norm2 _ _ = (adj (row l (F *m conj_mx X))^T *m (row l (F *m conj_mx X))^T) 0 0).
    rewrite {}E; apply: eq_bigr=> t _; rewrite adjE ![(row _ _)^T _ _]mxE ![row _ _ _ _]mxE fft2_mul fft2_mul.
    by rewrite ![conj_mx _ _ _]mxE conjCK.
  by rewrite mxE; apply: eq_bigr=> t _; rewrite adjE ![(row _ _)^T _ _]mxE ![row _ _ _ _]mxE -normCKC.
rewrite [bccb_eigs _ _ _]mxE; case: o => /=; last 1 first.
- by rewrite lsq; exact: (apply_opt_conj CSkew).
- rewrite rmorphM fmorphV /= conjCK; congr (_ / _).
    apply: eq_bigr=> t _; rewrite ![row _ _ _ _]mxE !fft2_mul ![conj_mx _ _ _]mxE conjCK //.
  rewrite -nr; congr (_^*); apply: eq_bigr=> t _; rewrite ![row _ _ _ _]mxE !fft2_mul ![conj_mx _ _ _]mxE conjCK //.
- by rewrite lsq; exact: (apply_opt_conj CUnitary).
- by rewrite lsq; exact: (apply_opt_conj CSymmetric).
Qed.
Lemma bccb_best o : (forall l, row_norm2 (F *m conj_mx X) l != 0) ->
  (forall l, lstsq_ok np (row l (F *m conj_mx X))^T (row l (F *m conj_mx Y))^T) ->
  best (fun A => is_bccb p q A /\ opt_holds o A) X Y (adj TFF *m diag_mx (conj_mx (bccb_eigs o)) *m TFF).
Proof.
move=> nz H.
apply: (transform_best (c := \row_l ((\sum_t ((TFF *m X) l t)^* * (TFF *m Y) l t) / row_norm2 (TFF *m X) l))).
- exact: TFF_unitary.
- by move=> B cB; apply: (bccb_diag (gr_pos Gp) (gr_pos Gq) npq Gp Gq).
- exact: bccb_is.
- by move=> l; have [h _] := bccb_coeff o (nz l) (H l); rewrite [(\row__ _) _ _]mxE mulfVK.
- by move=> l; have [_ h] := bccb_coeff o (nz l) (H l); rewrite [(\row__ _) _ _]mxE -h mxE.
Qed.
End Bccb.

(** ** block circulant *)
Section BC.
Variables (n p q : nat).
Hypotheses (p0 : (0 < p)%N) (HQ : root_ok pn q) (npq : (p * q)%N = n).
Let Gq := prim_good HQ.
Let F := fftb_mx pn n p q.
Lemma fftbE : F = Ffftb n p q (pi_root pn q).
Proof. by []. Qed.
Lemma fftb_sym : F^T = F.
Proof. by apply/matrixP=> i j; rewrite !mxE eq_sym mulnC. Qed.
Lemma bc_matrix (BD : 'M[C]_n) : conj_mx (F *m conj_mx (BD *m (F *m 1%:M))) = adj F *m BD *m F.
Proof. by rewrite mulmx1 !conj_mxM !conj_mxK -mulmxA -(adj_sym fftb_sym). Qed.

(** a block diagonal matrix acts on each slice *)
Definition pos (a : 'I_n) : 'I_p := Ordinal (mod_lt p0 a).
Definition blk (E : 'M[C]_n) (a : 'I_n) : 'rV[C]_p := \row_k fun_at (E a) (a %/ p * p + k).
Lemma in_blk (a b : 'I_n) : ~~ ((a %/ p * p <= b) && (b < a %/ p * p + p))%N -> (a %/ p != b %/ p)%N.
Proof.
apply: contraNneq => ->; rewrite {2 3}(divn_eq b p) leq_addr ltn_add2l ltn_mod //.
Qed.
Lemma blk_end (a : 'I_n) : (a %/ p * p + p <= n)%N.
Proof. by have := div_lt p0 npq a; move: (a %/ p)%N => j H; rewrite addnC -mulSn -npq mulnC leq_mul2l H orbT. Qed.
Lemma bd_row m (E : 'M[C]_n) (M : 'M[C]_(n, m)) a : blockdiag p E ->
  row a (E *m M) = blk E a *m block_slice p M (a %/ p).
Proof.
move=> HE; apply/rowP=> t; rewrite !mxE (@sum_slice _ _ _ (a %/ p * p) (a %/ p * p + p)) ?blk_end //.
  rewrite addKn; apply: eq_bigr=> k _; rewrite !mxE /fun_at /row_at; case: insub => [b|]; by rewrite ?mul0r.
by move=> b /in_blk h; rewrite HE // mul0r.
Qed.
Lemma block_row m (M : 'M[C]_(n, m)) a : row a M = row (pos a) (block_slice p M (a %/ p)).
Proof. by apply/rowP=> t; rewrite !mxE -divn_eq row_atE. Qed.
Lemma bd_blockdiag (d : nat -> 'M[C]_p) : blockdiag p (block_diag n d).
Proof. by move=> k l ne; rewrite mxE (negbTE ne). Qed.
Lemma mx_atE (M : 'M[C]_p) (i j : 'I_p) : mx_at M i j = M i j.
Proof. by rewrite /mx_at !valK. Qed.
Lemma blk_lt (a : 'I_n) (k : 'I_p) : (a %/ p * p + k < n)%N.
Proof. by apply: leq_trans (blk_end a); rewrite ltn_add2l. Qed.
Lemma bd_blk (d : nat -> 'M[C]_p) a : blk (block_diag n d) a = row (pos a) (d (a %/ p)%N).
Proof.
apply/rowP=> k; rewrite !mxE /fun_at insubT; first exact: blk_lt.
move=> h; rewrite mxE /= divnMDl // [(k %/ p)%N]divn_small // addn0 eqxx.
by rewrite modnMDl (modn_small (ltn_ord k)); exact: (mx_atE _ (pos a) k).
Qed.
Lemma blk_tri (E : 'M[C]_n) a (k : 'I_p) : tridiagonal_blocks p E -> blk E a 0 k != 0 ->
  (pos a < k + 2)%N /\ (k < pos a + 2)%N.
Proof.
move=> HE; rewrite mxE /fun_at insubT; first exact: blk_lt.
move=> h nz; apply/andP; apply: contraNT nz => out; apply/eqP; apply: HE.
rewrite /= modnMDl (modn_small (ltn_ord k)); move: out; rewrite negb_and -!leqNgt /= !addn2 !addn1.
by rewrite orbC.
Qed.

Lemma lstsq_row_best m (x y : 'M[C]_(p, m)) i (v : 'rV[C]_p) : lstsq_mx_ok np x^T y^T ->
  frob2 (row i y - row i (lstsq_mx np x^T y^T)^T *m x) <= frob2 (row i y - v *m x).
Proof.
move=> H; rewrite -frob2_T -[X in _ <= X]frob2_T !linearB /= !trmx_mul.
have -> : (row i y)^T = col i y^T by rewrite tr_row.
have -> : (row i (lstsq_mx np x^T y^T)^T)^T = np_lstsq np x^T (col i y^T) by apply/colP=> k; rewrite !mxE.
exact: lstsq_optimal (H i).
Qed.
Lemma band_row_best m (w : 'I_p -> nat * nat) (x y : 'M[C]_(p, m)) i (v : 'rV[C]_p) :
  lstsq_ok np (row_slice x (band_l1 (w i) i) (band_l2 p (w i) i))^T (row i y)^T ->
  (forall k, v 0 k != 0 -> (i < k + (w i).1)%N /\ (k < i + (w i).2)%N) ->
  frob2 (row i y - row i (band_matrix np w x y) *m x) <= frob2 (row i y - v *m x).
Proof.
move=> H hv; pose B : 'M[C]_p := \matrix_(i', k) if i' == i then v 0 k else 0.
have bB : banded w B by move=> i' k; rewrite mxE; case: (eqVneq i' i) => [->|_]; [exact: hv|rewrite eqxx].
have rB : row i B = v by apply/rowP=> k; rewrite !mxE eqxx.
rewrite -[v]rB -!row_mul -frob2_T -[X in _ <= X]frob2_T !linearB /= band_matrix_row (banded_row _ i bB).
exact: lstsq_optimal.
Qed.

Variables (m : nat) (X Y : 'M[C]_(n, m)) (tri : bool).
Let BD := block_diag n (bc_block np p tri (F *m X) (F *m Y)).
Definition bc_shape (A : 'M[C]_n) : Prop := is_block_circulant p q A /\ (tri -> tridiagonal_blocks p A).
Lemma BD_tri : tri -> tridiagonal_blocks p BD.
Proof.
move=> ht a b out; rewrite mxE; case: eqP => // E.
have -> : mx_at (bc_block np p tri (F *m X) (F *m Y) (a %/ p)) (a %% p) (b %% p)
   = bc_block np p tri (F *m X) (F *m Y) (a %/ p) (pos a) (pos b) by exact: (mx_atE _ (pos a) (pos b)).
rewrite /bc_block ht; apply/eqP; apply: contraTT out => /band_matrix_banded /= [h1 h2].
by rewrite negb_or -!leqNgt; move: h1 h2; rewrite /= !addn2 !addn1 !ltnS => -> ->.
Qed.
Lemma bc_is : bc_shape (adj F *m BD *m F).
Proof.
split; first by rewrite fftbE; apply: (blockdiag_bc Gq); apply: bd_blockdiag.
by move=> ht; rewrite fftbE; apply: tri_bwd; apply: BD_tri.
Qed.
Lemma bc_best : (forall j, (j < q)%N -> bc_solves_ok np p tri (F *m X) (F *m Y) j) ->
  best bc_shape X Y (adj F *m BD *m F).
Proof.
move=> H.
apply: (unitary_best (Q := fun E => blockdiag p E /\ (tri -> tridiagonal_blocks p E))).
- by rewrite fftbE; apply: (Ffftb_unitary p0 (gr_pos Gq) npq Gq).
- move=> B [h1 h2]; split; first by rewrite fftbE; apply: (bc_blockdiag p0 (gr_pos Gq) npq Gq).
  by move=> ht; rewrite fftbE; apply: tri_fwd; apply: h2.
- exact: bc_is.
split; first by split; [exact: bd_blockdiag|exact: BD_tri].
move=> E [bE tE]; apply: rows_best=> a.
rewrite !linearB /= !(bd_row _ _ (@bd_blockdiag _)) !(bd_row _ _ bE) bd_blk block_row.
have := H _ (div_lt p0 npq a); rewrite /bc_solves_ok /bc_block; case ht: tri => Ha.
- by apply: (band_row_best (w := fun _ => (2, 2)%N)); [exact: Ha|move=> k; apply: blk_tri; apply: tE].
- exact: lstsq_row_best.
Qed.
End BC.
End Circ.
