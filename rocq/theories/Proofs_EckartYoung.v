(** * The best approximation of given rank in the Frobenius norm *)
From mathcomp Require Import all_ssreflect all_fingroup all_algebra.
From Verif Require Import Py LinAlg Model_Operator Spec_Operator Proofs_OpCore Proofs_Operator Ideal Proofs_Subspace.
Set Implicit Arguments. Unset Strict Implicit. Unset Printing Implicit Defensive.
Import Order.TTheory GRing.Theory Num.Theory.
Local Open Scope ring_scope.

Section EckartYoung.
Variable C : numClosedFieldType.

Lemma frob2E m n (M : 'M[C]_(m, n)) : frob2 M = \sum_i \sum_j `|M i j| ^+ 2.
Proof. by []. Qed.
Lemma frob2_adj m n (M : 'M[C]_(m, n)) : frob2 (adj M) = frob2 M.
Proof. by rewrite frob2_tr adjK frob2_tr'. Qed.
Lemma frob2_isoR m n p (M : 'M[C]_(m, n)) (V : 'M[C]_(n, p)) : V *m adj V = 1%:M -> frob2 (M *m V) = frob2 M.
Proof. by move=> H; rewrite !frob2_tr adjM -mulmxA (mulmxA V) H mul1mx. Qed.
Lemma frob2_isoL m n p (M : 'M[C]_(m, n)) (U : 'M[C]_(p, m)) : adj U *m U = 1%:M -> frob2 (U *m M) = frob2 M.
Proof. by move=> H; rewrite !frob2_tr' adjM -mulmxA (mulmxA (adj U)) H mul1mx. Qed.

(** Pythagoras and Bessel for orthonormal columns *)
Lemma frob2_pyth n m p (W : 'M[C]_(n, p)) (Z B : 'M[C]_(n, m)) : adj W *m W = 1%:M -> W *m adj W *m B = B ->
  frob2 (Z - B) = frob2 (Z - W *m (adj W *m Z)) + frob2 (W *m (adj W *m Z) - B).
Proof.
move=> HW HB.
have -> : Z - B = (Z - W *m (adj W *m Z)) + (W *m (adj W *m Z) - B) by rewrite addrA subrK.
set M := Z - _; set N := _ - B.
have MN : adj N *m M = 0.
  have -> : N = W *m (adj W *m (Z - B)) by rewrite /N !mulmxBr -{1}HB !mulmxA.
  have WM : adj W *m M = 0 by rewrite /M mulmxBr (mulmxA (adj W) W) HW mul1mx subrr.
  by rewrite adjM -mulmxA WM mulmx0.
rewrite -[LHS]frob2_adj -[frob2 M]frob2_adj -[frob2 N]frob2_adj adjD; apply: frob2D_orth.
by rewrite adjK; apply: (@adj_inj C); rewrite adjM adjK adj0.
Qed.
Lemma frob2_proj n m p (W : 'M[C]_(n, p)) (Z : 'M[C]_(n, m)) : adj W *m W = 1%:M ->
  frob2 Z = frob2 (Z - W *m (adj W *m Z)) + frob2 (adj W *m Z).
Proof.
move=> HW; have := frob2_pyth (B := 0) Z HW; rewrite mulmx0 !subr0 => -> //.
by rewrite (frob2_isoL _ HW).
Qed.
Lemma bessel n m p (W : 'M[C]_(n, p)) (Z : 'M[C]_(n, m)) : adj W *m W = 1%:M -> frob2 (adj W *m Z) <= frob2 Z.
Proof. by move=> HW; rewrite [X in _ <= X](frob2_proj Z HW) ler_addr frob2_ge0. Qed.
Lemma frob2_orthonormal n p (W : 'M[C]_(n, p)) : adj W *m W = 1%:M -> frob2 W = p%:R.
Proof. by move=> H; rewrite frob2_tr' H mxtrace1. Qed.

Lemma frob2_diag m k (M : 'M[C]_(m, k)) (s : 'rV[C]_k) : (forall j, 0 <= s 0 j) ->
  frob2 (M *m diag_mx s) = \sum_j s 0 j ^+ 2 * frob2 (col j M).
Proof.
move=> Hs; rewrite frob2E exchange_big; apply: eq_bigr=> j _; rewrite frob2E mulr_sumr; apply: eq_bigr=> i _.
rewrite big_ord1 mul_mx_diag !mxE normrM exprMn mulrC; congr (_ * _).
by rewrite ger0_norm.
Qed.

(** weights between 0 and 1 of total at most [r] collect at most the [r] largest terms *)
Lemma weights k r (q c : 'I_k -> C) : (r <= k)%N ->
  (forall j, 0 <= q j) -> (forall i j : 'I_k, (i <= j)%N -> q j <= q i) ->
  (forall j, 0 <= c j <= 1) -> \sum_j c j <= r%:R ->
  \sum_j q j * c j <= \sum_(j < k | (j < r)%N) q j.
Proof.
move=> Hr Hq Hd Hc Hsum.
pose t : C := if insub r is Some i then q i else 0.
have Ht0 : 0 <= t by rewrite /t; case: insubP=> [i _ _|_]; rewrite ?Hq.
have Hlo (j : 'I_k) : (j < r)%N -> t <= q j.
  rewrite /t; case: insubP=> [i _ E|_] H; rewrite ?Hq //; apply: Hd; by rewrite E ltnW.
have Hhi (j : 'I_k) : (r <= j)%N -> q j <= t.
  move=> H; have Hk : (r < k)%N := leq_ltn_trans H (ltn_ord j).
  by rewrite /t insubT; apply: Hd.
rewrite -subr_ge0 (bigID (fun j : 'I_k => (j < r)%N) _ (fun j => q j * c j)) /= opprD addrA -sumrB.
have H1 : t * (\sum_(j < k | (j < r)%N) (1 - c j)) <= \sum_(j < k | (j < r)%N) (q j - q j * c j).
  rewrite mulr_sumr; apply: ler_sum=> j Hj; rewrite -{1}[q j]mulr1 -mulrBr ler_wpmul2r ?Hlo //.
  by rewrite subr_ge0; case/andP: (Hc j).
have H2 : \sum_(j < k | ~~ (j < r)%N) q j * c j <= t * (\sum_(j < k | ~~ (j < r)%N) c j).
  rewrite mulr_sumr; apply: ler_sum=> j; rewrite -leqNgt => Hj; rewrite ler_wpmul2r ?Hhi //.
  by case/andP: (Hc j).
apply: le_trans (ler_sub H1 H2); rewrite -mulrBr mulr_ge0 // sumrB.
have -> : \sum_(j < k | (j < r)%N) 1 = r%:R :> C.
  by rewrite (big_ord_narrow Hr) /= sumr_const card_ord.
rewrite -addrA -opprD subr_ge0; apply: le_trans Hsum.
by rewrite [X in _ <= X](bigID (fun j : 'I_k => (j < r)%N)).
Qed.

Lemma captured n m k p r (Z : 'M[C]_(n, m)) (U : 'M[C]_(n, k)) s (Vh : 'M[C]_(k, m)) (W : 'M[C]_(n, p)) :
  is_svd Z U s Vh -> adj W *m W = 1%:M -> (p <= r)%N -> (r <= k)%N ->
  frob2 (adj W *m Z) <= \sum_(j < k | (j < r)%N) s 0 j ^+ 2.
Proof.
case=> -> HU HV Hs Hd HW Hp Hr.
rewrite !mulmxA (frob2_isoR _ HV) (frob2_diag _ Hs); apply: weights=> //.
- by move=> j; rewrite exprn_ge0.
- by move=> i j Hij; rewrite ler_expn2r ?nnegrE //; exact: Hd.
- move=> j; rewrite frob2_ge0 /= colE -mulmxA -colE.
  apply: le_trans (bessel _ HW) _; have H1 : adj (col j U) *m col j U = 1%:M.
    apply/matrixP=> a b; rewrite !ord1 !mxE; have := congr1 (fun M : 'M_k => M j j) HU; rewrite !mxE eqxx => <-.
    by apply: eq_bigr=> i _; rewrite !adjE !mxE.
  by rewrite (frob2_orthonormal H1).
- have -> : \sum_j frob2 (col j (adj W *m U)) = frob2 (adj W *m U).
    rewrite [RHS]frob2E [RHS]exchange_big; apply: eq_bigr=> j _; rewrite frob2E; apply: eq_bigr=> i _.
    by rewrite big_ord1 [in LHS]mxE.
  rewrite -frob2_adj adjM adjK; apply: le_trans (bessel _ HU) _.
  by rewrite (frob2_orthonormal HW) ler_nat.
Qed.

Lemma range_basis n m (B : 'M[C]_(n, m)) : exists W : 'M[C]_(n, \rank B), adj W *m W = 1%:M /\ W *m adj W *m B = B.
Proof.
have HS := ideal_svdP B; have Hr : (\rank B <= minn n m)%N by rewrite leq_min rank_leq_row rank_leq_col.
have HX := sel_full HS erefl Hr; have [_ UU _ _] := HX.
by exists ((ideal_svd B).1.1 *m sel_mx C _ (\rank B)); split=> //; rewrite -mulmxA (XU HX).
Qed.

Theorem eckart_young n m k r (Z B : 'M[C]_(n, m)) (U : 'M[C]_(n, k)) s (Vh : 'M[C]_(k, m)) :
  is_svd Z U s Vh -> (r <= k)%N -> (\rank B <= r)%N ->
  let P := U *m sel_mx C k r in
  frob2 (Z - P *m (adj P *m Z)) <= frob2 (Z - B).
Proof.
move=> HS Hr HB /=; set P := U *m _; have [W [HW HWB]] := range_basis B.
have HP : adj P *m P = 1%:M := trunc_UU Hr HS.
rewrite (frob2_pyth Z HW HWB); apply: (@le_trans _ _ (frob2 (Z - W *m (adj W *m Z)))); last by rewrite ler_addl frob2_ge0.
rewrite -(ler_add2r (frob2 (adj P *m Z))) -(frob2_proj Z HP) [X in X <= _](frob2_proj Z HW) ler_add2l.
apply: le_trans (captured HS HW HB Hr) _.
rewrite (trunc_UX Hr HS).
have HV := trunc_VV Hr HS; rewrite (@frob2_isoR _ _ _ _ _ _) ?adjK //.
rewrite -[diag_mx _]mul1mx frob2_diag; last exact: (sr_ge0 Hr HS).
rewrite (big_ord_narrow Hr); apply: ler_sum=> j _.
rewrite -(sel_mx_colE s Hr) !mxE.
have -> : frob2 (col j 1%:M) = 1 :> C.
  rewrite frob2E (eq_bigr (fun i : 'I_r => (i == j)%:R)) => [|i _].
    by rewrite (bigD1 j) //= eqxx big1 ?addr0 // => i /negbTE ->.
  by rewrite big_ord1 !mxE; case: eqP=> _; rewrite ?normr1 ?expr1n ?normr0 ?expr0n.
by rewrite mulr1.
Qed.
End EckartYoung.
