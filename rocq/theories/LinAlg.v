(** * Conjugate transposition, scalings, least squares and decompositions
      over a closed numeric field (mathcomp) *)
From mathcomp Require Import all_ssreflect all_algebra.
Set Implicit Arguments. Unset Strict Implicit. Unset Printing Implicit Defensive.
Import GRing.Theory Num.Theory.
Local Open Scope ring_scope.

Section Adj.
Variable C : numClosedFieldType.

(** [M.conj().T] *)
Definition adj m n (M : 'M[C]_(m, n)) : 'M[C]_(n, m) := (map_mx conjC M)^T.

Lemma adjE m n (M : 'M[C]_(m, n)) i j : adj M i j = (M j i)^*.
Proof. by rewrite !mxE. Qed.
Lemma adjK m n (M : 'M[C]_(m, n)) : adj (adj M) = M.
Proof. by apply/matrixP=> i j; rewrite !adjE conjCK. Qed.
Lemma adjM m n p (M : 'M[C]_(m, n)) (N : 'M[C]_(n, p)) : adj (M *m N) = adj N *m adj M.
Proof. by rewrite /adj map_mxM trmx_mul. Qed.
Lemma adjD m n (M N : 'M[C]_(m, n)) : adj (M + N) = adj M + adj N.
Proof. by apply/matrixP=> i j; rewrite !mxE rmorphD. Qed.
Lemma adjN m n (M : 'M[C]_(m, n)) : adj (- M) = - adj M.
Proof. by apply/matrixP=> i j; rewrite !mxE rmorphN. Qed.
Lemma adjB m n (M N : 'M[C]_(m, n)) : adj (M - N) = adj M - adj N.
Proof. by rewrite adjD adjN. Qed.
Lemma adj0 m n : adj (0 : 'M[C]_(m, n)) = 0.
Proof. by apply/matrixP=> i j; rewrite !mxE rmorph0. Qed.
Lemma adj1 n : adj (1%:M : 'M[C]_n) = 1%:M.
Proof. by rewrite /adj map_mx1 trmx1. Qed.
Lemma adjZ m n (a : C) (M : 'M[C]_(m, n)) : adj (a *: M) = a^* *: adj M.
Proof. by apply/matrixP=> i j; rewrite !mxE rmorphM. Qed.
Lemma adj_diag n (d : 'rV[C]_n) : adj (diag_mx d) = diag_mx (map_mx conjC d).
Proof.
apply/matrixP=> i j; rewrite adjE !mxE eq_sym; case: eqP => [->|_] /=; first by rewrite !mulr1n.
by rewrite !mulr0n rmorph0.
Qed.
Lemma adj_inj m n : injective (@adj m n).
Proof. by move=> M N /(congr1 (@adj n m)); rewrite !adjK. Qed.

(** squared Frobenius norm *)
Definition frob2 m n (M : 'M[C]_(m, n)) : C := \sum_i \sum_j `|M i j| ^+ 2.

Lemma frob2_ge0 m n (M : 'M[C]_(m, n)) : 0 <= frob2 M.
Proof. by apply: sumr_ge0=> i _; apply: sumr_ge0=> j _; rewrite exprn_ge0. Qed.
Lemma frob2_eq0 m n (M : 'M[C]_(m, n)) : (frob2 M == 0) = (M == 0).
Proof.
apply/idP/eqP=> [|->]; last first.
  by apply/eqP; rewrite /frob2 big1 // => i _; rewrite big1 // => j _; rewrite mxE normr0 expr0n.
rewrite /frob2 psumr_eq0; last by move=> i _; apply: sumr_ge0=> j _; rewrite exprn_ge0.
move=> /allP H; apply/matrixP=> i j; rewrite mxE.
have := H i; rewrite mem_index_enum => /(_ isT) /=.
rewrite psumr_eq0; last by move=> k _; rewrite exprn_ge0.
move=> /allP /(_ j); rewrite mem_index_enum => /(_ isT) /=.
by rewrite sqrf_eq0 normr_eq0 => /eqP.
Qed.
Lemma frob2_tr m n (M : 'M[C]_(m, n)) : frob2 M = \tr (M *m adj M).
Proof.
rewrite /frob2 /mxtrace; apply: eq_bigr=> i _; rewrite mxE; apply: eq_bigr=> j _.
by rewrite adjE normCK.
Qed.
Lemma frob2_tr' m n (M : 'M[C]_(m, n)) : frob2 M = \tr (adj M *m M).
Proof. by rewrite frob2_tr mxtrace_mulC. Qed.

Lemma gram_eq0 m n (M : 'M[C]_(m, n)) : adj M *m M = 0 -> M = 0.
Proof. by move=> H; apply/eqP; rewrite -frob2_eq0 frob2_tr' H mxtrace0. Qed.
Lemma gram_cancel m n p (M : 'M[C]_(m, n)) (Z : 'M[C]_(n, p)) : adj M *m M *m Z = 0 -> M *m Z = 0.
Proof. by move=> H; apply: gram_eq0; rewrite adjM -mulmxA (mulmxA (adj M)) H mulmx0. Qed.
Lemma gram_cancel_eq m n p (M : 'M[C]_(m, n)) (Z W : 'M[C]_(n, p)) :
  adj M *m M *m Z = adj M *m M *m W -> M *m Z = M *m W.
Proof.
move=> H; apply/eqP; rewrite -subr_eq0 -mulmxBr; apply/eqP; apply: gram_cancel.
by rewrite mulmxBr H subrr.
Qed.

Lemma frob2D_orth m n (M N : 'M[C]_(m, n)) : M *m adj N = 0 -> frob2 (M + N) = frob2 M + frob2 N.
Proof.
move=> H; rewrite !frob2_tr adjD mulmxDl !mulmxDr H addr0.
have -> : N *m adj M = 0 by apply: (@adj_inj m m); rewrite adjM adjK H adj0.
by rewrite add0r raddfD.
Qed.

(** ** Column scaling: NumPy's [M * s] with a one-dimensional [s] *)
Definition scale_cols m n (M : 'M[C]_(m, n)) (s : 'rV[C]_n) : 'M[C]_(m, n) :=
  \matrix_(i, j) (M i j * s 0 j).
Lemma scale_colsE m n (M : 'M[C]_(m, n)) (s : 'rV[C]_n) : scale_cols M s = M *m diag_mx s.
Proof. by rewrite mul_mx_diag. Qed.

(** np.reciprocal *)
Definition recip n (s : 'rV[C]_n) : 'rV[C]_n := \row_j (s 0 j)^-1.
Lemma diag_recip n (s : 'rV[C]_n) : (forall j, s 0 j != 0) -> diag_mx s *m diag_mx (recip s) = 1%:M.
Proof.
move=> H; rewrite mulmx_diag; apply/matrixP=> i j; rewrite !mxE.
by case: (i == j); rewrite ?mulr0n // mulfV // mulr1n.
Qed.
Lemma recip_diag n (s : 'rV[C]_n) : (forall j, s 0 j != 0) -> diag_mx (recip s) *m diag_mx s = 1%:M.
Proof. by move=> H; rewrite diag_mxC diag_recip. Qed.

(** ** Full column rank *)
Lemma full_col_cancel m n p (M : 'M[C]_(m, n)) (Z W : 'M[C]_(n, p)) :
  row_full M -> M *m Z = M *m W -> Z = W.
Proof.
move=> /row_fullP [L HL] H.
by rewrite -(mul1mx Z) -(mul1mx W) -HL -!mulmxA H.
Qed.

(** ** Contracts of the numerical routines *)
(** numpy.linalg.svd(X, full_matrices=False): U, s, Vh *)
Definition is_svd m n k (X : 'M[C]_(m, n)) (U : 'M[C]_(m, k)) (s : 'rV[C]_k) (Vh : 'M[C]_(k, n)) : Prop :=
  [/\ X = U *m diag_mx s *m Vh, adj U *m U = 1%:M, Vh *m adj Vh = 1%:M,
      forall j, 0 <= s 0 j & forall i j : 'I_k, (i <= j)%N -> s 0 j <= s 0 i].

(** numpy.linalg.eig(A): eigenvalues and unit-norm right eigenvectors *)
Definition is_eig r (A : 'M[C]_r) (lam : 'rV[C]_r) (W : 'M[C]_r) : Prop :=
  A *m W = W *m diag_mx lam /\ forall j, \sum_i `|W i j| ^+ 2 = 1.

(** numpy.linalg.lstsq(M, y)[0]: a least-squares solution (the normal equations) *)
Definition is_lstsq m n p (M : 'M[C]_(m, n)) (y : 'M[C]_(m, p)) (b : 'M[C]_(n, p)) : Prop :=
  adj M *m M *m b = adj M *m y.

(** scipy.linalg.pinv: the Moore-Penrose conditions *)
Definition is_pinv m n (M : 'M[C]_(m, n)) (P : 'M[C]_(n, m)) : Prop :=
  [/\ M *m P *m M = M, P *m M *m P = P, adj (M *m P) = M *m P & adj (P *m M) = P *m M].

Lemma pinv_left m n (M : 'M[C]_(m, n)) P : is_pinv M P -> row_full M -> P *m M = 1%:M.
Proof.
case=> H _ _ _ F; apply: (full_col_cancel F).
by rewrite mulmxA H mulmx1.
Qed.
Lemma pinv_unique m n (M : 'M[C]_(m, n)) P Q : is_pinv M P -> is_pinv M Q -> P = Q.
Proof.
case=> P1 P2 P3 P4 [Q1 Q2 Q3 Q4].
have E1 : P *m M = Q *m M.
  have A : P *m M = adj (Q *m M) *m adj (P *m M).
    by rewrite -adjM !mulmxA -(mulmxA P M Q) -(mulmxA P (M *m Q) M) Q1 P4.
  by rewrite A P4 Q4 !mulmxA -(mulmxA Q M P) -(mulmxA Q (M *m P) M) P1.
have E2 : M *m P = M *m Q.
  have A : M *m P = adj (M *m P) *m adj (M *m Q).
    by rewrite -adjM !mulmxA Q1 P3.
  by rewrite A P3 Q3 !mulmxA P1.
by rewrite -P2 E1 -mulmxA E2 mulmxA Q2.
Qed.

(** a least-squares solution reproduces data in the range *)
Lemma lstsq_range m n p (M : 'M[C]_(m, n)) (y : 'M[C]_(m, p)) b c :
  is_lstsq M y b -> y = M *m c -> M *m b = y.
Proof. by move=> H E; subst y; apply: gram_cancel_eq; rewrite H mulmxA. Qed.

(** ... and its residual is the smallest one *)
Lemma lstsq_optimal m n p (M : 'M[C]_(m, n)) (y : 'M[C]_(m, p)) b c :
  is_lstsq M y b -> frob2 (y - M *m b) <= frob2 (y - M *m c).
Proof.
move=> H; set R := y - M *m b; set D := M *m (b - c).
have -> : y - M *m c = R + D by rewrite /R /D mulmxBr addrA subrK.
have T (A : 'M[C]_(m, p)) : frob2 A = frob2 (adj A) by rewrite frob2_tr' frob2_tr adjK.
rewrite (T R) (T (R + D)) adjD frob2D_orth ?ler_addl ?frob2_ge0 // adjK.
have -> : adj R *m D = adj (adj M *m R) *m (b - c) by rewrite /R /D !adjM adjK !mulmxA.
have -> : adj M *m R = 0 by rewrite /R mulmxBr mulmxA H subrr.
by rewrite adj0 mul0mx.
Qed.
End Adj.
