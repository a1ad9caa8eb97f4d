(** * Cayley-Hamilton: the states of a linear system from the n-th on are combinations of the first ones *)
From mathcomp Require Import all_ssreflect all_algebra.
From Verif Require Import LinAlg Model_Operator Spec_Operator Proofs_Recovery.
Set Implicit Arguments. Unset Strict Implicit. Unset Printing Implicit Defensive.
Import GRing.Theory.
Local Open Scope ring_scope.

Section Krylov.
Variable C : numClosedFieldType.

Lemma mpow_exp n (B : 'M[C]_n.+1) k : mpow B k = B ^+ k.
Proof. by elim: k=> [|k IH] /=; rewrite ?expr0 // exprS IH. Qed.

Lemma krylov n (B : 'M[C]_n) (x : 'cV[C]_n) k : (n <= k)%N ->
  exists c : 'cV[C]_k, mpow B k *m x = \sum_(j < k) c j 0 *: (mpow B j *m x).
Proof.
case: n B x => [|n] B x Hk; first by exists 0; apply/colP=> -[].
pose p : {poly C} := 'X^k - 'X^(k - n.+1) * char_poly B.
have Hp : (size p <= k)%N.
  have Sz : size ('X^(k - n.+1) * char_poly B) = k.+1.
    rewrite mulrC size_Mmonic ?monicXn ?monic_neq0 ?char_poly_monic // size_char_poly size_polyXn addSn /=.
    by rewrite addnS subnKC.
  have HM : 'X^(k - n.+1) * char_poly B \is monic by rewrite monicMl ?monicXn // char_poly_monic.
  apply/leq_sizeP=> j; rewrite leq_eqVlt coefB coefXn => /orP[/eqP <-|Hj].
    by move: HM; rewrite eqxx monicE lead_coefE Sz /= => /eqP ->; rewrite subrr.
  by rewrite (gtn_eqF Hj) nth_default ?Sz // subrr.
have Hx : horner_mx B p = mpow B k.
  rewrite mpow_exp rmorphB rmorphM !rmorphX /= !horner_mx_X.
  by rewrite Cayley_Hamilton mulr0 subr0.
have Hs : horner_mx B p *m x = \sum_(j < k) p`_j *: (mpow B j *m x).
  rewrite -{1}(coefK p) poly_def (big_ord_widen k (fun i => p`_i *: 'X^i) Hp).
  rewrite rmorph_sum mulmx_suml /= big_mkcond; apply: eq_bigr=> j _; rewrite mpow_exp.
  case: ltnP=> Hj; first by rewrite linearZ /= rmorphX /= horner_mx_X -scalemxAl.
  by rewrite (nth_default _ Hj) scale0r.
by exists (\col_j p`_j); rewrite -Hx Hs; apply: eq_bigr=> j _; rewrite mxE.
Qed.
End Krylov.
