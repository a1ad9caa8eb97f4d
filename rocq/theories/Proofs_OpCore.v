(** * Matrix algebra behind the DMD operator, independent of the model *)
From mathcomp Require Import all_ssreflect all_algebra fingroup perm.
From Verif Require Import LinAlg.
Set Implicit Arguments. Unset Strict Implicit. Unset Printing Implicit Defensive.
Import Order.TTheory GRing.Theory Num.Theory.
Local Open Scope ring_scope.

Section Core.
Variable C : numClosedFieldType.

(** the linear operator represented by a decomposition X = U S V^h and Y:
    the matrix Y V S^-1 U^h *)
Definition full_op n m r (Y : 'M[C]_(n, m)) (U : 'M[C]_(n, r)) (s : 'rV[C]_r) (V : 'M[C]_(m, r)) : 'M[C]_n :=
  Y *m V *m diag_mx (recip s) *m adj U.

Section Decomp.
Variables (n m r : nat) (Y : 'M[C]_(n, m)) (U : 'M[C]_(n, r)) (s : 'rV[C]_r) (V : 'M[C]_(m, r)).
Let A := full_op Y U s V.
Let At := adj U *m Y *m V *m diag_mx (recip s).

Lemma exact_eigen p (W : 'M[C]_(r, p)) (L : 'M[C]_p) : At *m W = W *m L ->
  A *m (Y *m V *m diag_mx (recip s) *m W) = (Y *m V *m diag_mx (recip s) *m W) *m L.
Proof. by move=> H; rewrite /A /full_op -!mulmxA -H /At -!mulmxA. Qed.

Lemma exact_nonzero p (W : 'M[C]_(r, p)) : adj U *m (Y *m V *m diag_mx (recip s) *m W) = At *m W.
Proof. by rewrite /At !mulmxA. Qed.

Lemma atilde_proj : adj U *m U = 1%:M -> adj U *m A *m U = At.
Proof. by move=> H; rewrite /A /full_op /At -!mulmxA H mulmx1. Qed.

Lemma proj_eigen p (W : 'M[C]_(r, p)) (L : 'M[C]_p) : adj U *m U = 1%:M -> At *m W = W *m L ->
  (U *m adj U *m A) *m (U *m W) = (U *m W) *m L.
Proof.
move=> HU H; rewrite -(mulmxA U W) -H -(atilde_proj HU) !mulmxA //.
Qed.
End Decomp.

(** ** Truncation *)
Definition sel_mx k r : 'M[C]_(k, r) := \matrix_(i, j) (i == j :> nat)%:R.
Lemma sel_mx_adj k r (H : (r <= k)%N) : adj (sel_mx k r) *m sel_mx k r = 1%:M.
Proof.
apply/matrixP=> i j; rewrite !mxE (bigD1 (widen_ord H i)) //= big1 ?addr0; last first.
  move=> l Hl; rewrite adjE !mxE; case: eqP=> // E; last by rewrite conjC0 mul0r.
  by case/eqP: Hl; apply/val_inj.
by rewrite adjE !mxE /= eqxx conjC1 mul1r -val_eqE.
Qed.
Lemma sel_mx_colE n k r (M : 'M[C]_(n, k)) (H : (r <= k)%N) :
  \matrix_(i, j) M i (widen_ord H j) = M *m sel_mx k r.
Proof.
apply/matrixP=> i j; rewrite !mxE (bigD1 (widen_ord H j)) //= big1 ?addr0 ?mxE ?eqxx ?mulr1 //.
move=> l Hl; rewrite !mxE; case: eqP=> E; last by rewrite mulr0.
by case/eqP: Hl; apply/val_inj.
Qed.
Lemma diag_sel k r (s : 'rV[C]_k) : (r <= k)%N ->
  diag_mx s *m sel_mx k r = sel_mx k r *m diag_mx (s *m sel_mx k r).
Proof.
move=> H; apply/matrixP=> i j; rewrite -(sel_mx_colE s H) mul_mx_diag mul_diag_mx !mxE mulrC.
by case: eqP=> E; rewrite ?mul0r // !mul1r; congr (s _ _); apply/val_inj.
Qed.

Section Trunc.
Variables (n m k r : nat) (X : 'M[C]_(n, m)) (U : 'M[C]_(n, k)) (s : 'rV[C]_k) (Vh : 'M[C]_(k, m)).
Hypotheses (H : (r <= k)%N) (HS : is_svd X U s Vh).
Let E := sel_mx k r.
Let Ur := U *m E. Let sr := s *m E. Let Vr := adj Vh *m E.

Lemma trunc_UU : adj Ur *m Ur = 1%:M.
Proof. by case: HS=> _ HU _ _ _; rewrite /Ur adjM -mulmxA (mulmxA (adj U)) HU mul1mx sel_mx_adj. Qed.
Lemma trunc_VV : adj Vr *m Vr = 1%:M.
Proof. by case: HS=> _ _ HV _ _; rewrite /Vr adjM adjK -mulmxA (mulmxA Vh) HV mul1mx sel_mx_adj. Qed.
Lemma trunc_XV : X *m Vr = Ur *m diag_mx sr.
Proof.
case: HS=> -> _ HV _ _; rewrite /Vr /Ur /sr -!mulmxA (mulmxA Vh) HV mul1mx -(diag_sel s H).
by rewrite !mulmxA.
Qed.
Lemma s_conj : map_mx conjC s = s.
Proof.
case: HS=> _ _ _ H0 _; apply/matrixP=> i j; rewrite mxE (ord1 i) geC0_conj //.
Qed.
Lemma sr_ge0 j : 0 <= sr 0 j.
Proof. by case: HS=> _ _ _ H0 _; rewrite /sr /E -(sel_mx_colE _ H) mxE. Qed.
Lemma sr_conj : map_mx conjC sr = sr.
Proof. by apply/matrixP=> i j; rewrite mxE (ord1 i) geC0_conj // sr_ge0. Qed.
Lemma trunc_UX : adj Ur *m X = diag_mx sr *m adj Vr.
Proof.
apply: (@adj_inj C r m); rewrite !adjM !adjK adj_diag sr_conj.
case: HS=> -> HU HV _ _; rewrite /Ur /Vr /sr !adjM adj_diag s_conj.
by rewrite -!mulmxA (mulmxA (adj U)) HU mul1mx -(diag_sel s H).
Qed.
End Trunc.

(** ** A decomposition that is exact: X = U S V^h with orthonormal columns and S invertible *)
Definition exact_svd n m r (X : 'M[C]_(n, m)) (U : 'M[C]_(n, r)) (s : 'rV[C]_r) (V : 'M[C]_(m, r)) : Prop :=
  [/\ X = U *m diag_mx s *m adj V, adj U *m U = 1%:M, adj V *m V = 1%:M & forall j, s 0 j != 0].

Section Exact.
Variables (n m r : nat) (X Y : 'M[C]_(n, m)) (U : 'M[C]_(n, r)) (s : 'rV[C]_r) (V : 'M[C]_(m, r)).
Hypothesis HS : exact_svd X U s V.

(** the fitted operator maps X to Y whenever the rows of Y respect the linear relations of X *)
Lemma full_op_maps (B : 'M[C]_n) : Y = B *m X -> full_op Y U s V *m X = Y.
Proof.
case: HS=> EX HU HV Hs EY.
have XV : X *m V *m adj V = X by rewrite EX -!mulmxA (mulmxA (adj V)) HV mul1mx.
have UX : diag_mx (recip s) *m adj U *m X = adj V.
  by rewrite {1}EX !mulmxA -(mulmxA _ (adj U)) HU mulmx1 recip_diag // mul1mx.
by rewrite /full_op -2!mulmxA (mulmxA _ (adj U)) UX EY -!mulmxA (mulmxA X) XV.
Qed.

(** X lies in the range of U, with invertible coordinates *)
Lemma XU : U *m (adj U *m X) = X.
Proof. by case: HS=> -> HU _ _; rewrite !mulmxA -(mulmxA U) HU mulmx1. Qed.
Lemma span_U : X *m V *m diag_mx (recip s) = U.
Proof. by case: HS=> -> HU HV Hs; rewrite -!mulmxA (mulmxA (adj V)) HV mul1mx diag_recip // mulmx1. Qed.

(** the normal equations: the fitted operator is a least-squares solution of A X = Y *)
Lemma normal_eq : (Y - full_op Y U s V *m X) *m adj X = 0.
Proof.
case: HS=> EX HU HV Hs.
have UX : diag_mx (recip s) *m adj U *m X = adj V.
  by rewrite {1}EX !mulmxA -(mulmxA _ (adj U)) HU mulmx1 recip_diag // mul1mx.
have XA : adj X = V *m adj (U *m diag_mx s) by rewrite EX !adjM adjK.
rewrite /full_op -(mulmxA (Y *m V)) -(mulmxA (Y *m V)) UX mulmxBl XA.
by rewrite -(mulmxA (Y *m V)) (mulmxA (adj V)) HV mul1mx !mulmxA subrr.
Qed.
Lemma full_op_optimal (B : 'M[C]_n) :
  frob2 (Y - full_op Y U s V *m X) <= frob2 (Y - B *m X).
Proof.
have := normal_eq; set A := full_op Y U s V; set R := Y - A *m X => NE.
have -> : Y - B *m X = R + (A - B) *m X by rewrite /R mulmxBl addrA subrK.
rewrite frob2D_orth ?ler_addl ?frob2_ge0 //.
by rewrite adjM mulmxA NE mul0mx.
Qed.
End Exact.

(** ** Tikhonov: ridge regression *)
Definition ridge n m r (X : 'M[C]_(n, m)) (U : 'M[C]_(n, r)) (s : 'rV[C]_r) (V : 'M[C]_(m, r)) (c : C) Y :=
  full_op Y U (\row_j (((s 0 j) ^+ 2 + c) * (s 0 j)^-1)) V.

Lemma ridge_normal n m r (X Y : 'M[C]_(n, m)) (U : 'M[C]_(n, r)) (s : 'rV[C]_r) (V : 'M[C]_(m, r)) (c : C) :
  exact_svd X U s V -> (forall j, 0 < s 0 j) -> 0 <= c ->
  ridge X U s V c Y *m (X *m adj X + c%:M) = Y *m adj X.
Proof.
move=> HS Hp Hc; case: (HS)=> EX HU HV Hs.
have Hc2 : map_mx conjC s = s.
  by apply/matrixP=> i j; rewrite mxE (ord1 i) geC0_conj // ltW.
have XX : X *m adj X = U *m diag_mx s *m diag_mx s *m adj U.
  by rewrite EX !adjM adjK adj_diag Hc2 -!mulmxA (mulmxA (adj V) V) HV mul1mx.
have D : diag_mx (recip (\row_j (((s 0 j) ^+ 2 + c) * (s 0 j)^-1))) *m (diag_mx s *m diag_mx s + c%:M) = diag_mx s.
  rewrite mulmx_diag -diag_const_mx -raddfD mulmx_diag /=; congr diag_mx; apply/matrixP=> i j; rewrite !mxE.
  rewrite (ord1 i) invfM invrK mulrAC -expr2 mulVf ?mul1r //.
  by rewrite gt_eqF // ltr_paddr // exprn_gt0.
rewrite /ridge /full_op mulmxDr XX.
have -> : Y *m V *m diag_mx (recip (\row_j (((s 0 j) ^+ 2 + c) * (s 0 j)^-1))) *m adj U *m (U *m diag_mx s *m diag_mx s *m adj U)
  = Y *m V *m (diag_mx (recip (\row_j (((s 0 j) ^+ 2 + c) * (s 0 j)^-1))) *m (diag_mx s *m diag_mx s)) *m adj U.
  by rewrite -!mulmxA (mulmxA (adj U) U) HU mul1mx.
move: D; set G := diag_mx _ => D.
have -> : Y *m V *m G *m adj U *m c%:M = Y *m V *m (G *m c%:M) *m adj U.
  by rewrite -!mulmxA; do 3 congr (_ *m _); exact: scalar_mxC.
rewrite -mulmxDl -mulmxDr -mulmxDr D.
by rewrite EX !adjM adjK adj_diag Hc2 -!mulmxA.
Qed.

End Core.
