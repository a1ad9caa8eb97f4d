(** * LANDO: kernels given by finitely many real features *)
From mathcomp Require Import all_ssreflect all_algebra.
From Verif Require Import Py LinAlg Model_Operator Spec_Operator Model_Lando Spec_Lando Proofs_Lando Proofs_LandoDict.
Set Implicit Arguments. Unset Strict Implicit. Unset Printing Implicit Defensive.
Import Order.TTheory GRing.Theory Num.Theory.
Local Open Scope ring_scope.

Section Feature.
Variables (C : numClosedFieldType) (n : nat).
Implicit Types (k : 'cV[C]_n -> 'cV[C]_n -> C) (x y : 'cV[C]_n).
Definition featured k : Prop := exists p (phi : 'cV[C]_n -> 'cV[C]_p), feature_kernel k phi.

Lemma featured_pos k : featured k -> pos_kernel k.
Proof.
case=> p [phi [R E]]; split=> [x y Rx Ry | x y _ _ | m D c RD].
- by rewrite E; apply: realm_mul; [apply: realm_tr; apply: R | apply: R].
- by rewrite !E !mxE; apply: eq_bigr => i _; rewrite !mxE mulrC.
pose P : 'M[C]_(p, m) := \matrix_(i, j) phi (col j D) i 0.
have RP : realm P by move=> i j; rewrite mxE; apply: R => a b; rewrite mxE.
rewrite /knorm2; have -> : kernels k D D = adj P *m P.
  rewrite realm_adj //; apply/matrixP => i j; rewrite !mxE E !mxE; apply: eq_bigr => l _; by rewrite !mxE.
rewrite mulmxA -adjM -mulmxA mxE sumr_ge0 // => i _; rewrite !mxE mulrC; exact: mul_conjC_ge0.
Qed.
Lemma featured_ext k1 k2 : (forall x y, k1 x y = k2 x y) -> featured k1 -> featured k2.
Proof. by move=> E [p [phi [R H]]]; exists p, phi; split=> // x y; rewrite -E. Qed.
Lemma featured_dot : featured (@dot C n).
Proof. by exists n, id; split. Qed.
Lemma featured_const (a : C) : 0 <= a -> featured (fun _ _ => a).
Proof.
move=> a0; exists 1%N, (fun _ => (sqrtC a)%:M); split=> [x _ | x y].
  by apply: realm_scalar; apply: ger0_real; rewrite sqrtC_ge0.
by rewrite tr_scalar_mx -scalar_mxM mxE eqxx mulr1n -expr2 sqrtCK.
Qed.
Lemma featured_add k1 k2 : featured k1 -> featured k2 -> featured (fun x y => k1 x y + k2 x y).
Proof.
case=> p [f [Rf Ef]] [q [g [Rg Eg]]]; exists (p + q)%N, (fun x => col_mx (f x) (g x)); split=> [x Rx | x y].
  by move=> i j; rewrite mxE; case: (split i) => i'; [apply: Rf | apply: Rg].
by rewrite tr_col_mx mul_row_col mxE Ef Eg.
Qed.
Lemma featured_mul k1 k2 : featured k1 -> featured k2 -> featured (fun x y => k1 x y * k2 x y).
Proof.
case=> p [f [Rf Ef]] [q [g [Rg Eg]]]; exists (p * q)%N, (fun x => (mxvec (f x *m (g x)^T))^T); split=> [x Rx i j | x y].
  by rewrite (ord1 j) mxE; case/mxvec_indexP: i => a b; rewrite mxvecE mxE big_ord1 mxE realM //; [apply: Rf | apply: Rg].
rewrite Ef Eg trmxK [RHS]mxE (eq_bigr (fun l => mxvec (\matrix_(a, b) (f x a 0 * f y a 0 * (g x b 0 * g y b 0))) 0 l)); last first.
  move=> l _; case/mxvec_indexP: l => a b; rewrite mxE !mxvecE !mxE !big_ord1 !mxE.
  by rewrite mulrACA.
rewrite !mxE big_distrl (reindex _ (curry_mxvec_bij p q)) /=.
rewrite [RHS](eq_bigr (fun ab => f x ab.1 0 * f y ab.1 0 * (g x ab.2 0 * g y ab.2 0))); last first.
  by case=> a b _; rewrite /= mxvecE mxE.
rewrite -(pair_bigA _ (fun a b => f x a 0 * f y a 0 * (g x b 0 * g y b 0))) /=.
by apply: eq_bigr => a _; rewrite big_distrr /= mxE; apply: eq_bigr => b _; rewrite mxE.
Qed.
Lemma featured_exp k e : featured k -> featured (fun x y => k x y ^+ e).
Proof.
move=> F; elim: e => [|e IH].
  by apply: featured_ext (featured_const ler01) => x y; rewrite expr0.
by apply: featured_ext (featured_mul F IH) => x y; rewrite exprS.
Qed.

(** the kernels of sklearn *)
Lemma linear_featured ex : featured (kernel ex (@KLinear C n)).
Proof. exact: featured_dot. Qed.
Lemma poly_featured ex g c e : 0 <= gamma_of n g -> 0 <= coef_of c -> featured (kernel ex (@KPoly C n g c e)).
Proof.
move=> g0 c0; apply: featured_exp; apply: featured_add; last exact: featured_const.
apply: featured_mul; [exact: featured_const | exact: featured_dot].
Qed.
End Feature.
