(** * Linear algebra of VarProDMD: packing, residual, coefficients, Jacobian *)
From mathcomp Require Import all_ssreflect all_fingroup all_algebra.
From Verif Require Import Py LinAlg Model_Operator Spec_Operator Proofs_Subspace Model_VarPro.
Set Implicit Arguments. Unset Strict Implicit. Unset Printing Implicit Defensive.
Import Order.TTheory GRing.Theory Num.Theory.
Local Open Scope ring_scope.

Section Proofs.
Variables (C : numClosedFieldType) (np : numpy C) (x : vext C).

Lemma packK l (w : 'rV[C]_l) : unpack (pack w) = w.
Proof. by apply/rowP => j; rewrite /unpack /pack row_mxKl row_mxKr !mxE -Crect. Qed.
Lemma unpackK l (a : 'rV[C]_(l + l)) : (forall j, a 0 j \is Num.real) -> pack (unpack a) = a.
Proof.
move=> R; have Rl (j : 'I_l) : lsubmx a 0 j \is Num.real by rewrite mxE.
have Rr (j : 'I_l) : rsubmx a 0 j \is Num.real by rewrite mxE.
rewrite -[RHS]hsubmxK; congr row_mx; apply/rowP => j; rewrite mxE [unpack a 0 j]mxE [X in _ + X]mxE;
  by rewrite ?Re_rect ?Im_rect.
Qed.
Lemma pack_real l (w : 'rV[C]_l) j : pack w 0 j \is Num.real.
Proof. by rewrite mxE; case: splitP => k _; rewrite mxE ?Creal_Re ?Creal_Im. Qed.
Lemma pack_norm l (w : 'rV[C]_l) : \sum_j `|pack w 0 j| ^+ 2 = \sum_j `|w 0 j| ^+ 2.
Proof.
rewrite big_split_ord -big_split /=; apply: eq_bigr => j _.
by rewrite row_mxEl row_mxEr !mxE (real_normK (Creal_Re _)) (real_normK (Creal_Im _)) -normC2_rect ?Creal_Re ?Creal_Im // -Crect.
Qed.
Lemma packD l (v w : 'rV[C]_l) : pack (v + w) = pack v + pack w.
Proof. by rewrite /pack add_row_mx; congr row_mx; apply/rowP => j; rewrite !mxE raddfD. Qed.

Lemma pack0 l : pack (0 : 'rV[C]_l) = 0.
Proof. by rewrite -[RHS]row_mx0; congr row_mx; apply/rowP => j; rewrite !mxE raddf0. Qed.

Section Eval.
Variables (k l q : nat) (t : 'rV[C]_k) (Y : 'M[C]_(k, q)) (w : 'rV[C]_l).
Local Notation Phi := (vexp x t w).
Local Notation h := (evaluate np x t Y w).
Hypothesis HS : svd_ok np Phi.

Lemma eval_lstsq : is_lstsq Phi Y (h_B h).
Proof.
move: HS; rewrite /svd_ok /is_lstsq /evaluate; case: (np_svd np Phi) => [[U s] Vh] /= [-> UU VV S0 _].
rewrite scale_colsE !adjM adj_diag !mulmxA; have -> : map_mx conjC s = s by apply/rowP => j; rewrite mxE; apply/CrealP; exact: ger0_real.
rewrite -[_ *m adj U *m U]mulmxA UU mulmx1 -[_ *m Vh *m adj Vh]mulmxA VV mulmx1.
rewrite -!mulmxA; congr (_ *m _); rewrite !mulmxA; congr (_ *m _ *m _).
rewrite -!mulmxA !mulmx_diag; apply/matrixP => i j; rewrite !mxE; case: eqP => [->|] //=; rewrite ?mulr0n ?mulr1n //.
have [->|N0] := eqVneq (s 0 j) 0; first by rewrite !mul0r.
by rewrite mulfV // mulr1.
Qed.
Lemma eval_orth : adj Phi *m h_rho h = 0.
Proof.
move: HS; rewrite /svd_ok /evaluate; case: (np_svd np Phi) => [[U s] Vh] /= [-> UU VV S0 _].
by rewrite !adjM !mulmxBr !mulmxA -[_ *m adj U *m U]mulmxA UU mulmx1 subrr.
Qed.
Lemma eval_best (B : 'M[C]_(l, q)) : frob2 (Y - Phi *m h_B h) <= frob2 (Y - Phi *m B).
Proof. exact: lstsq_optimal eval_lstsq. Qed.

(** no singular value is 0 *)
Lemma full_svd : row_full Phi -> forall j, (np_svd np Phi).1.2 0 j != 0.
Proof.
move=> F j; rewrite -(svd_rank HS); have := ltn_ord j; rewrite leq_min => /andP [_ H].
by move: F; rewrite /row_full => /eqP ->.
Qed.
Lemma eval_rho : row_full Phi -> h_rho h = Y - Phi *m h_B h.
Proof.
move=> /full_svd; move: HS; rewrite /svd_ok /evaluate; case: (np_svd np Phi) => [[U s] Vh] /= [E UU VV S0 _] N0.
congr (_ - _); rewrite E scale_colsE -!mulmxA; congr (_ *m _); rewrite [Vh *m _]mulmxA VV mul1mx !mulmxA diag_recip //.
by rewrite mul1mx.
Qed.
End Eval.
End Proofs.
