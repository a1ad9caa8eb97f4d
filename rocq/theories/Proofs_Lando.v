(** * LANDO: positive kernels and the Cholesky invariant *)
From mathcomp Require Import all_ssreflect all_algebra.
From Verif Require Import Py LinAlg Model_Operator Spec_Operator Model_Lando Spec_Lando.
Set Implicit Arguments. Unset Strict Implicit. Unset Printing Implicit Defensive.
Import Order.TTheory GRing.Theory Num.Theory.
Local Open Scope ring_scope.

Section Real.
Variable C : numClosedFieldType.
Lemma realm_adj a b (M : 'M[C]_(a, b)) : realm M -> adj M = M^T.
Proof. by move=> H; apply/matrixP => i j; rewrite adjE mxE conj_Creal. Qed.
Lemma realm_mul a b c (M : 'M[C]_(a, b)) (N : 'M[C]_(b, c)) : realm M -> realm N -> realm (M *m N).
Proof. by move=> H H' i j; rewrite mxE rpred_sum // => l _; rewrite rpredM. Qed.
Lemma realm_tr a b (M : 'M[C]_(a, b)) : realm M -> realm M^T.
Proof. by move=> H i j; rewrite mxE. Qed.
Lemma realm_add a b (M N : 'M[C]_(a, b)) : realm M -> realm N -> realm (M + N).
Proof. by move=> H H' i j; rewrite mxE rpredD. Qed.
Lemma realm_opp a b (M : 'M[C]_(a, b)) : realm M -> realm (- M).
Proof. by move=> H i j; rewrite mxE rpredN. Qed.
Lemma realm_scale a b (z : C) (M : 'M[C]_(a, b)) : z \is Num.real -> realm M -> realm (z *: M).
Proof. by move=> Z H i j; rewrite mxE rpredM. Qed.
Lemma realm_0 a b : realm (0 : 'M[C]_(a, b)).
Proof. by move=> i j; rewrite mxE rpred0. Qed.
Lemma realm_scalar a (z : C) : z \is Num.real -> realm (z%:M : 'M[C]_a).
Proof. by move=> Z i j; rewrite mxE; case: (i == j); rewrite ?mulr1n ?mulr0n ?rpred0. Qed.
Lemma realm_block a b c d (A : 'M[C]_(a, c)) (B : 'M[C]_(a, d)) (D : 'M[C]_(b, c)) (E : 'M[C]_(b, d)) :
  realm A -> realm B -> realm D -> realm E -> realm (block_mx A B D E).
Proof.
move=> HA HB HD HE i j; rewrite /block_mx; case: (split_ordP i) => i' ->; rewrite ?col_mxEu ?col_mxEd;
  case: (split_ordP j) => j' ->; rewrite ?row_mxEl ?row_mxEr //.
Qed.
Lemma realm_row a b c (A : 'M[C]_(a, b)) (B : 'M[C]_(a, c)) : realm A -> realm B -> realm (row_mx A B).
Proof. by move=> HA HB i j; case: (split_ordP j) => j' ->; rewrite ?row_mxEl ?row_mxEr. Qed.
Lemma realm_col a b (M : 'M[C]_(a, b)) j : realm M -> realm (col j M).
Proof. by move=> H i j'; rewrite mxE. Qed.
Lemma realm_inv a (M : 'M[C]_a) : realm M -> realm (invmx M).
Proof.
move=> H; have E : map_mx conjC M = M by apply/matrixP => i j; rewrite mxE conj_Creal.
by move=> i j; apply/CrealP; rewrite -[in RHS]E -map_invmx [in RHS]mxE.
Qed.
Lemma adj_block a b c d (A : 'M[C]_(a, c)) (B : 'M[C]_(a, d)) (D : 'M[C]_(b, c)) (E : 'M[C]_(b, d)) :
  adj (block_mx A B D E) = block_mx (adj A) (adj D) (adj B) (adj E).
Proof. by rewrite /adj map_block_mx tr_block_mx. Qed.
Lemma adj_colm a b c (A : 'M[C]_(a, c)) (B : 'M[C]_(b, c)) : adj (col_mx A B) = row_mx (adj A) (adj B).
Proof. by rewrite /adj map_col_mx tr_col_mx. Qed.
Lemma adj_rowm a b c (A : 'M[C]_(a, b)) (B : 'M[C]_(a, c)) : adj (row_mx A B) = col_mx (adj A) (adj B).
Proof. by rewrite /adj map_row_mx tr_row_mx. Qed.
Lemma adj_scalar a (z : C) : adj (z%:M : 'M[C]_a) = (z^*)%:M.
Proof. by rewrite /adj map_scalar_mx tr_scalar_mx. Qed.
Lemma mx11 (M : 'M[C]_1) : M = (M 0 0)%:M.
Proof. exact: mx11_scalar. Qed.

(** an exact solution of a square regular system *)
Lemma lstsq_unit m p (A : 'M[C]_m) (b : 'M[C]_(m, p)) z : A \in unitmx -> is_lstsq A b z -> A *m z = b.
Proof.
move=> U /= H; have Ua : adj A \in unitmx by rewrite /adj unitmx_tr map_unitmx.
by move: H; rewrite /is_lstsq -mulmxA => /(congr1 (mulmx (invmx (adj A)))); rewrite !mulKmx.
Qed.

(** a vector of zero length in a positive form is in its kernel *)
Lemma psd_null m (M : 'M[C]_m) (c : 'cV[C]_m) : adj M = M -> (forall z : 'cV[C]_m, 0 <= (adj z *m M *m z) 0 0) ->
  (adj c *m M *m c) 0 0 = 0 -> M *m c = 0.
Proof.
move=> HM P H0; pose v := M *m c; pose a := (adj v *m v) 0 0; pose q := (adj v *m M *m v) 0 0.
have a0 : 0 <= a.
  rewrite /a mxE sumr_ge0 // => i _; by rewrite adjE mulrC mul_conjC_ge0.
have q0 : 0 <= q := P v.
have E (t : C) : t \is Num.real -> 0 <= - (t * a) - t * (a - t * q).
  move=> Rt; have := P (c - t *: v); congr (0 <= _).
  have -> : adj (c - t *: v) *m M *m (c - t *: v) =
    adj c *m M *m c - t *: (adj c *m M *m v) - t *: (adj v *m M *m c - t *: (adj v *m M *m v)).
    rewrite adjB adjZ (conj_Creal Rt) !mulmxBl !mulmxBr -!scalemxAl -!scalemxAr.
    by rewrite [in RHS]scalerBr.
  have E1 : (adj c *m M *m v) 0 0 = a by rewrite /a /v adjM HM mulmxA.
  have E2 : (adj v *m M *m c) 0 0 = a by rewrite /a -mulmxA.
  rewrite !mxE in H0 E1 E2 *.
  by rewrite H0 E1 E2 sub0r -[in RHS]/q /q mxE.
have [az|/eqP an] := eqVneq a 0.
  by move: az; rewrite /a => az; apply: gram_eq0; apply/matrixP => i j; rewrite !ord1 az mxE.
have ap : 0 < a by rewrite lt_neqAle eq_sym a0 andbT; apply/eqP.
have q1 : 0 < q + 1 by apply: (lt_le_trans ltr01); rewrite ler_addr.
pose t := a / (q + 1); have tp : 0 < t by rewrite divr_gt0.
have := E t (gtr0_real tp).
have -> : a - t * q = t by rewrite -[X in X - _](@divfK _ (q + 1)) ?gt_eqF // -/t mulrDr mulr1 addrC addKr.
by rewrite -opprD oppr_ge0 lt_geF // addr_gt0 // mulr_gt0.
Qed.
End Real.
