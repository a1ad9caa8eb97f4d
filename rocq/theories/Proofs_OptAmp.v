(** * The amplitudes of [opt=True] minimise the error over all the snapshots (dmdbase.py:672-745) *)
From mathcomp Require Import all_ssreflect all_algebra.
From Verif Require Import Py LinAlg Model_Operator Spec_Operator.
Set Implicit Arguments. Unset Strict Implicit. Unset Printing Implicit Defensive.
Import GRing.Theory Num.Theory Order.TTheory.
Local Open Scope ring_scope.

Section OptAmp.
Variable C : numClosedFieldType.

(** the reconstruction at the training times: sum over the modes of mode, amplitude and power of the eigenvalue *)
Definition evolution n r (Phi : 'M[C]_(n, r)) (L : 'rV[C]_r) (b : 'cV[C]_r) (N : nat) : 'M[C]_(n, N) :=
  \matrix_(i, k) \sum_j Phi i j * b j 0 * L 0 j ^+ k.

Lemma evolutionE n r (Phi : 'M[C]_(n, r)) L b N : evolution Phi L b N = Phi *m (diag_mx b^T *m vander L N).
Proof. by apply/matrixP=> i k; rewrite !mxE; apply: eq_bigr=> j _; rewrite mul_diag_mx !mxE mulrA. Qed.
Lemma evolutionB n r (Phi : 'M[C]_(n, r)) L b c N : evolution Phi L (b - c) N = evolution Phi L b N - evolution Phi L c N.
Proof.
apply/matrixP=> i k; rewrite !mxE -sumrB; apply: eq_bigr=> j _.
by rewrite !mxE mulrBr mulrBl.
Qed.

(** the normal equations, written with P and q *)
Lemma opt_PE n r (Phi : 'M[C]_(n, r)) L (b : 'cV[C]_r) N i :
  (opt_P Phi L N *m b) i 0 = (adj Phi *m evolution Phi L b N *m adj (vander L N)) i i.
Proof.
rewrite evolutionE mxE; set V := vander L N.
have -> : adj Phi *m (Phi *m (diag_mx b^T *m V)) *m adj V = (adj Phi *m Phi) *m (diag_mx b^T *m (V *m adj V)) by rewrite !mulmxA.
rewrite mxE; apply: eq_bigr=> j _; rewrite mul_diag_mx ![in RHS]mxE /opt_P /hadamard /conj_mx 3!mxE.
rewrite -/V -mulrA [in RHS]mulrA [in RHS]mulrAC -mulrA; congr (_ * _); rewrite ?mxE.
by congr (_ * _); rewrite rmorph_sum; apply: eq_bigr=> k _; rewrite rmorphM /= !adjE conjCK mulrC.
Qed.
Lemma opt_qE n r (Phi : 'M[C]_(n, r)) L N (S : 'M[C]_(n, N)) i :
  opt_q_exact Phi L S i 0 = (adj Phi *m S *m adj (vander L N)) i i.
Proof.
rewrite /opt_q_exact mxE -adjE !adjM adjK mulmxA; congr ((_ *m _) i i).
Qed.

Lemma normal_orth n r (Phi : 'M[C]_(n, r)) L N (S : 'M[C]_(n, N)) b (c : 'cV[C]_r) :
  opt_P Phi L N *m b = opt_q_exact Phi L S ->
  \tr (adj (evolution Phi L c N) *m (S - evolution Phi L b N)) = 0.
Proof.
move=> H; set R := S - _; set V := vander L N.
rewrite evolutionE adjM adjM -mulmxA mxtrace_mulC.
have -> : adj Phi *m R *m (adj V *m adj (diag_mx c^T)) = (adj Phi *m R *m adj V) *m adj (diag_mx c^T) by rewrite !mulmxA.
have D : adj (diag_mx c^T) = diag_mx (map_mx conjC c^T).
  apply/matrixP=> i j; rewrite adjE !mxE eq_sym; case: eqP=> [->|_]; by rewrite ?mulr1n ?mulr0n ?rmorph0.
rewrite D /mxtrace big1 // => i _; rewrite mul_mx_diag [LHS]mxE.
suff -> : (adj Phi *m R *m adj V) i i = 0 by rewrite mul0r.
by rewrite /R mulmxBr mulmxBl [LHS]mxE [X in _ + X]mxE -opt_PE -opt_qE H subrr.
Qed.

Lemma frob2D n N (A B : 'M[C]_(n, N)) : \tr (adj B *m A) = 0 -> frob2 (A + B) = frob2 A + frob2 B.
Proof.
move=> H; rewrite !frob2_tr' adjD mulmxDl !mulmxDr !mxtraceD H add0r.
have -> : \tr (adj A *m B) = 0; last by rewrite addr0.
have -> : adj A *m B = adj (adj B *m A) by rewrite adjM adjK.
have T (M : 'M[C]_N) : \tr (adj M) = (\tr M)^* by rewrite /mxtrace rmorph_sum; apply: eq_bigr=> i _; rewrite adjE.
by rewrite T H rmorph0.
Qed.

Theorem optimal_amplitudes n r (Phi : 'M[C]_(n, r)) L N (S : 'M[C]_(n, N)) b c :
  opt_P Phi L N *m b = opt_q_exact Phi L S ->
  frob2 (S - evolution Phi L b N) <= frob2 (S - evolution Phi L c N).
Proof.
move=> H; have -> : S - evolution Phi L c N = (S - evolution Phi L b N) + evolution Phi L (b - c) N.
  by rewrite evolutionB addrA subrK.
by rewrite (frob2D (normal_orth (b - c) H)) ler_addl frob2_ge0.
Qed.
(** the minimiser is unique when P is invertible *)
Theorem optimal_amplitudes_unique n r (Phi : 'M[C]_(n, r)) L N (S : 'M[C]_(n, N)) b c :
  opt_P Phi L N *m b = opt_q_exact Phi L S -> opt_P Phi L N \in unitmx ->
  frob2 (S - evolution Phi L c N) <= frob2 (S - evolution Phi L b N) -> c = b.
Proof.
move=> H U; have -> : S - evolution Phi L c N = (S - evolution Phi L b N) + evolution Phi L (b - c) N.
  by rewrite evolutionB addrA subrK.
rewrite (frob2D (normal_orth (b - c) H)) ger_addl => Hle.
have E : evolution Phi L (b - c) N = 0 by apply/eqP; rewrite -frob2_eq0 eq_le Hle frob2_ge0.
have : opt_P Phi L N *m (b - c) = 0.
  by apply/colP=> i; rewrite opt_PE E mulmx0 mul0mx !mxE.
by move/(congr1 (mulmx (invmx (opt_P Phi L N)))); rewrite mulKmx // mulmx0 => /subr0_eq ->.
Qed.
End OptAmp.

Section Fits.
Variable C : numClosedFieldType.
Implicit Type np : numpy C.
Lemma amplitudes_optimal np n N m (S : 'M[C]_(n, N)) (X : 'M[C]_(n, m)) (o : op_fit C n m) b :
  amplitudes np true (OptBool true) S X o = Ok b ->
  (let P := opt_P (of_modes o) (of_eigs o) N in forall q, P \in unitmx -> solve_ok np P q) ->
  (forall c, frob2 (S - evolution (of_modes o) (of_eigs o) b N) <= frob2 (S - evolution (of_modes o) (of_eigs o) c N)) /\
  (forall c, frob2 (S - evolution (of_modes o) (of_eigs o) c N) <= frob2 (S - evolution (of_modes o) (of_eigs o) b N) -> c = b).
Proof.
rewrite /amplitudes; case: ifP=> // U [<-] H; split=> c; first by apply: optimal_amplitudes; exact: H.
by apply: optimal_amplitudes_unique => //; exact: H.
Qed.
End Fits.
