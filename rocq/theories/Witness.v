(** * Routines meeting the contracts everywhere, used by the examples: Moore-Penrose inverse, least squares, roots of unity *)
From mathcomp Require Import all_ssreflect all_algebra all_field.
From Verif Require Import Py LinAlg Model_Operator Spec_Operator.
Set Implicit Arguments. Unset Strict Implicit. Unset Printing Implicit Defensive.
Import Order.TTheory GRing.Theory Num.Theory.
Local Open Scope ring_scope.

Section Ginv.
Variable C : numClosedFieldType.
Lemma gram_unit_r n r (R : 'M[C]_(r, n)) : row_free R -> R *m adj R \in unitmx.
Proof.
move=> fR; rewrite -row_free_unit -kermx_eq0; set K := kermx _.
have H : K *m (R *m adj R) = 0 by exact: mulmx_ker.
have : adj (adj (K *m R)) *m adj (K *m R) = 0.
  by rewrite adjK adjM mulmxA -(mulmxA K) H mul0mx.
by move/gram_eq0 => E; rewrite -(mulmx_free_eq0 _ fR) -[K *m R]adjK E adj0.
Qed.
Lemma gram_unit_l m r (L : 'M[C]_(m, r)) : row_full L -> adj L *m L \in unitmx.
Proof.
move=> fL; have fA : row_free (adj L).
  by rewrite -row_leq_rank /adj mxrank_tr mxrank_map; move: fL; rewrite -col_leq_rank.
by have := gram_unit_r fA; rewrite adjK.
Qed.
Definition ginv m n (M : 'M[C]_(m, n)) : 'M[C]_(n, m) :=
  adj (row_base M) *m invmx (row_base M *m adj (row_base M)) *m (invmx (adj (col_base M) *m col_base M) *m adj (col_base M)).
Lemma adj_inv n (A : 'M[C]_n) : adj (invmx A) = invmx (adj A).
Proof. by rewrite /adj map_invmx trmx_inv. Qed.
Lemma factor_pinv m n r (L : 'M[C]_(m, r)) (R : 'M[C]_(r, n)) : adj L *m L \in unitmx -> R *m adj R \in unitmx ->
  is_pinv (L *m R) (adj R *m invmx (R *m adj R) *m (invmx (adj L *m L) *m adj L)).
Proof.
move=> fL fR; set P := _ *m (_ *m _).
have MP : L *m R *m P = L *m invmx (adj L *m L) *m adj L.
  by rewrite /P -!mulmxA (mulmxA R) (mulmxA (R *m adj R)) (mulmxV fR) mul1mx.
have PM : P *m (L *m R) = adj R *m invmx (R *m adj R) *m R.
  by rewrite /P -!mulmxA (mulmxA (adj L)) (mulmxA (invmx (adj L *m L))) (mulVmx fL) mul1mx.
split.
- by rewrite MP -!mulmxA (mulmxA (adj L)) (mulmxA (invmx (adj L *m L))) (mulVmx fL) mul1mx.
- by rewrite PM /P -!mulmxA (mulmxA R) (mulmxA (R *m adj R) (invmx _)) (mulmxV fR) mul1mx.
- by rewrite MP !adjM adj_inv adjM !adjK mulmxA.
- by rewrite PM !adjM adj_inv adjM !adjK mulmxA.
Qed.
Lemma ginv_ok m n (M : 'M[C]_(m, n)) : is_pinv M (ginv M).
Proof.
have := factor_pinv (gram_unit_l (col_base_full M)) (gram_unit_r (row_base_free M)).
by rewrite mulmx_base.
Qed.
Lemma ginv_lstsq m n p (M : 'M[C]_(m, n)) (y : 'M[C]_(m, p)) : is_lstsq M y (ginv M *m y).
Proof.
have [H1 _ H3 _] := ginv_ok M; rewrite /is_lstsq mulmxA; congr (_ *m _).
by rewrite -(mulmxA (adj M) M) -H3 -adjM H1.
Qed.
End Ginv.

Local Notation AC := algCnumClosedField.
Definition root_of (N : nat) : algC :=
  match N with 0 => 1 | N'.+1 => projT1 (C_prim_root_exists (ltn0Sn N')) end.
Lemma root_of_prim N : (0 < N)%N -> N.-primitive_root (root_of N).
Proof. by case: N => // N _; rewrite /root_of; case: C_prim_root_exists. Qed.
