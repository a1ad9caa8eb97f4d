(** * General lemmas for C33: optimality of row-wise fits, normal equations, Procrustes *)
From mathcomp Require Import all_ssreflect all_algebra.
From Verif Require Import Py LinAlg Model_Operator Spec_Operator Model_PiDMD Spec_PiDMD.
Set Implicit Arguments. Unset Strict Implicit. Unset Printing Implicit Defensive.
Import Order.TTheory GRing.Theory Num.Theory.
Local Open Scope ring_scope.

Section Alg.
Variable C : numClosedFieldType.

Lemma frob2_rows n m (M : 'M[C]_(n, m)) : frob2 M = \sum_i frob2 (row i M).
Proof. by apply: eq_bigr=> i _; rewrite /frob2 big_ord1; apply: eq_bigr=> j _; rewrite mxE. Qed.
Lemma frob2_T n m (M : 'M[C]_(n, m)) : frob2 M^T = frob2 M.
Proof.
by rewrite /frob2 exchange_big; apply: eq_bigr=> i _; apply: eq_bigr=> j _; rewrite mxE.
Qed.
Lemma frob2_adj n m (M : 'M[C]_(n, m)) : frob2 (adj M) = frob2 M.
Proof. by rewrite frob2_tr' frob2_tr adjK. Qed.
Lemma frob2_conj n m (M : 'M[C]_(n, m)) : frob2 (conj_mx M) = frob2 M.
Proof. by apply: eq_bigr=> i _; apply: eq_bigr=> j _; rewrite mxE norm_conjC. Qed.
(** multiplication by a matrix with orthonormal columns keeps the norm *)
Lemma frob2_iso n m p (W : 'M[C]_(p, n)) (M : 'M[C]_(n, m)) : adj W *m W = 1%:M -> frob2 (W *m M) = frob2 M.
Proof. by move=> H; rewrite !frob2_tr' adjM -mulmxA (mulmxA (adj W)) H mul1mx. Qed.
Lemma frob2_iso_r n m p (W : 'M[C]_(m, p)) (M : 'M[C]_(n, m)) : W *m adj W = 1%:M -> frob2 (M *m W) = frob2 M.
Proof. by move=> H; rewrite !frob2_tr adjM -mulmxA (mulmxA W) H mul1mx. Qed.

(** row by row optimality *)
Lemma rows_best n m (A B : 'M[C]_(n, m)) : (forall i, frob2 (row i A) <= frob2 (row i B)) -> frob2 A <= frob2 B.
Proof. by move=> H; rewrite (frob2_rows A) (frob2_rows B); apply: ler_sum=> i _; apply: H. Qed.

(** ** The normal equations of a linear family of matrices *)
Section Family.
Variables (N n m : nat) (G : 'I_N -> 'M[C]_(n, m)).
Definition combine (d : 'cV[C]_N) : 'M[C]_(n, m) := \sum_l d l 0 *: G l.
Definition gram : 'M[C]_N := \matrix_(l, k) \tr (adj (G l) *m G k).
Definition gram_rhs (Y : 'M[C]_(n, m)) : 'cV[C]_N := \col_l \tr (adj (G l) *m Y).
Let M : 'M[C]_(n * m, N) := \matrix_(a, l) mxvec (G l) 0 a.

Lemma mxvec_dot (A B : 'M[C]_(n, m)) : \sum_a (mxvec A 0 a)^* * mxvec B 0 a = \tr (adj A *m B).
Proof.
rewrite mxtrace_mulC /mxtrace.
under [RHS]eq_bigr => i _ do (rewrite mxE; under eq_bigr => j _ do rewrite adjE mulrC).
rewrite pair_bigA /=; rewrite (reindex (uncurry (@mxvec_index n m))) /=; last first.
  exact: (curry_mxvec_bij n m).
by apply: eq_bigr=> [[i j]] _ /=; rewrite !mxvecE.
Qed.
Lemma frob2_mxvec (A : 'M[C]_(n, m)) : frob2 (mxvec A)^T = frob2 A.
Proof.
rewrite frob2_T !frob2_tr' -mxvec_dot /mxtrace.
by apply: eq_bigr=> a _; rewrite mxE big_ord1 adjE.
Qed.
Lemma combine_vec d : (mxvec (combine d))^T = M *m d.
Proof.
apply/colP=> a; rewrite !mxE linear_sum summxE; apply: eq_bigr=> l _.
by rewrite linearZ !mxE mulrC.
Qed.
Lemma gramE : gram = adj M *m M.
Proof.
by apply/matrixP=> l k; rewrite !mxE -mxvec_dot; apply: eq_bigr=> a _; rewrite adjE !mxE.
Qed.
Lemma gram_rhsE Y : gram_rhs Y = adj M *m (mxvec Y)^T.
Proof.
by apply/colP=> l; rewrite !mxE -mxvec_dot; apply: eq_bigr=> a _; rewrite adjE !mxE.
Qed.
Lemma gram_herm : adj gram = gram.
Proof. by rewrite gramE adjM adjK. Qed.

(** a least-squares solution of the normal equations is a best combination *)
Lemma normal_best Y d : is_lstsq gram (gram_rhs Y) d ->
  forall e, frob2 (Y - combine d) <= frob2 (Y - combine e).
Proof.
move=> H e; set v := (mxvec Y)^T.
have Hd : is_lstsq M v d.
  move: H; rewrite /is_lstsq gram_herm -!mulmxA gramE gram_rhsE -/v => H.
  set x := adj M *m (M *m d); set y := adj M *m v.
  have E : adj M *m M *m (x - y) = 0.
    rewrite mulmxBr; apply/eqP; rewrite subr_eq0; apply/eqP.
    by rewrite /x /y; move: H; rewrite -!mulmxA.
  have E1 := gram_cancel E.
  have E2 : x - y = adj M *m (M *m d - v) by rewrite mulmxBr.
  have E3 : adj (adj M) *m adj M *m (M *m d - v) = 0 by rewrite adjK -mulmxA -E2.
  by have := gram_cancel E3; rewrite -E2 => /eqP; rewrite subr_eq0 => /eqP.
have := lstsq_optimal e Hd; rewrite -!combine_vec /v.
have E A B : (mxvec A)^T - (mxvec B)^T = (mxvec (A - B : 'M[C]_(n, m)))^T.
  by apply/colP=> a; rewrite linearB !mxE.
by rewrite !E !frob2_mxvec.
Qed.
End Family.

(** ** One coefficient per row *)
Lemma row_fit m (f g : 'rV[C]_m) (c : C) : c * frob2 f = \sum_t (f 0 t)^* * g 0 t ->
  forall d, frob2 (g - d *: f) = frob2 (g - c *: f) + `|d - c| ^+ 2 * frob2 f.
Proof.
move=> H d; have -> : g - d *: f = (g - c *: f) + (c - d) *: f by rewrite scalerBl addrA subrK.
have E : (g - c *: f) *m adj f = 0.
  apply/matrixP=> i j; rewrite !ord1 [RHS]mxE mulmxBl -scalemxAl [LHS]mxE [X in _ + X]mxE [X in _ - X]mxE.
  have -> : (f *m adj f) 0 0 = frob2 f by rewrite frob2_tr /mxtrace big_ord1.
  by rewrite H mxE; apply/eqP; rewrite subr_eq0; apply/eqP; apply: eq_bigr=> t _; rewrite adjE mulrC.
rewrite frob2D_orth; last by rewrite adjZ -scalemxAr E scaler0.
congr (_ + _); rewrite distrC /frob2 !big_ord1 mulr_sumr; apply: eq_bigr=> t _.
by rewrite mxE normrM exprMn.
Qed.
Lemma row_fit_le m (f g : 'rV[C]_m) (c d e : C) : c * frob2 f = \sum_t (f 0 t)^* * g 0 t ->
  `|d - c| <= `|e - c| -> frob2 (g - d *: f) <= frob2 (g - e *: f).
Proof.
move=> H le; rewrite (row_fit H d) (row_fit H e) ler_add2l ler_wpmul2r ?frob2_ge0 //.
by rewrite ler_expn2r ?nnegrE.
Qed.
Lemma Re_le (z : C) : `|'Re z| <= `|z|.
Proof. by case: (leif_normC_Re_Creal z). Qed.
Lemma Im_le (z : C) : `|'Im z| <= `|z|.
Proof.
have -> : 'Im z = 'Re (- 'i * z) by rewrite mulNr raddfN /= ReMil opprK.
by apply: (le_trans (Re_le _)); rewrite normrM normrN normCi mul1r.
Qed.
(** the nearest admissible value *)
Definition admissible (o : circ_opt) (e : C) : Prop :=
  match o with CFree => True | CUnitary => `|e| = 1 | CSymmetric => e^* = e | CSkew => e^* = - e end.
Lemma unit_phase1 (c : C) : `|unit_phase c| = 1.
Proof.
rewrite /unit_phase; case: eqP => [_|/eqP H]; first by rewrite normr1.
by rewrite normrM normfV normr_id mulfV // normr_eq0.
Qed.
Lemma opt_admissible o c : admissible o (apply_opt o c).
Proof.
case: o => //=; first exact: unit_phase1.
- by apply/CrealP; exact: Creal_Re.
- by rewrite rmorphM conjCi mulNr; congr (- (_ * _)); apply/CrealP; exact: Creal_Im.
Qed.
Lemma opt_nearest o c e : admissible o e -> `|apply_opt o c - c| <= `|e - c|.
Proof.
case: o => /= H.
- by rewrite subrr normr0.
- have -> : `|unit_phase c - c| = `| `|e| - `|c| |; last by exact: ler_dist_dist.
  rewrite H /unit_phase; case: eqP => [->|/eqP nz]; first by rewrite normr0 !subr0.
  have -> : c / `|c| - c = (c / `|c|) * (1 - `|c|).
    by rewrite mulrBr mulr1 -mulrA mulVf ?mulr1 // normr_eq0.
  by rewrite normrM normrM normfV normr_id mulfV ?mul1r // normr_eq0.
- have -> : 'Re c - c = - ('i * 'Im c) by rewrite {2}[c]Crect opprD addrA subrr add0r.
  rewrite normrN normrM normCi mul1r.
  have -> : 'Im c = - 'Im (e - c) 
    by rewrite raddfB /= opprB; have /Creal_ImP -> : e \is Num.real by [apply/CrealP]; rewrite subr0.
  by rewrite normrN; apply: Im_le.
- have -> : 'i * 'Im c - c = - 'Re c by rewrite {2}[c]Crect opprD addrC subrK.
  rewrite normrN.
  have -> : 'Re c = - 'Re (e - c).
    rewrite raddfB /= opprB; have -> : 'Re e = 0 by rewrite ReE H subrr mul0r.
    by rewrite subr0.
  by rewrite normrN; apply: Re_le.
Qed.
End Alg.
