(** * Restriction of a diagonalisable, invertible system to an invariant subspace *)
From mathcomp Require Import all_ssreflect all_fingroup all_algebra.
From Verif Require Import Py LinAlg Model_Operator Spec_Operator Proofs_Operator Proofs_Operator2 Ideal.
Set Implicit Arguments. Unset Strict Implicit. Unset Printing Implicit Defensive.
Import GRing.Theory Num.Theory.
Local Open Scope ring_scope.

Section Compress.
Variable C : numClosedFieldType.

Lemma diagonal_inP r (A : 'M[C]_r) : diagonal_in A <-> diagonalizable A^T.
Proof.
split.
  case=> W [L [HW E]]; exists W^T; first by rewrite unitmx_tr.
  apply/diagonalizable_forPex; exists L; apply/simmxP; first by rewrite unitmx_tr.
  by rewrite -trmx_mul E trmx_mul tr_diag_mx.
case=> P Pu /diagonalizable_forPex [L /(simmxP Pu) HL]; exists P^T, L; split; first by rewrite unitmx_tr.
by apply: trmx_inj; rewrite !trmx_mul trmxK tr_diag_mx.
Qed.

Lemma horner_intertwine r n (V : 'M[C]_(r.+1, n.+1)) (A : 'M[C]_r.+1) (B : 'M[C]_n.+1) q :
  V *m B = A *m V -> V *m horner_mx B q = horner_mx A q *m V.
Proof.
move=> H; elim/poly_ind: q=> [|q c IH]; first by rewrite !rmorph0 mulmx0 mul0mx.
rewrite !rmorphD !rmorphM /= !horner_mx_X !horner_mx_C mulmxDr mulmxDl mulmxA IH -mulmxA H mulmxA.
by rewrite scalar_mxC.
Qed.

Lemma compress_diag n r (B : 'M[C]_n) (A : 'M[C]_r) (U : 'M[C]_(n, r)) :
  adj U *m U = 1%:M -> B *m U = U *m A -> diagonal_in B -> diagonal_in A.
Proof.
case: r A U => [|r] A U HU HB HD.
  by exists 1%:M, 0; split; [exact: unitmx1|apply/matrixP=> -[]].
case: n B U HU HB HD => [|n] B U HU HB HD.
  move: HU; rewrite [U]flatmx0 mulmx0 => /matrixP/(_ ord0 ord0); rewrite !mxE eqxx => /eqP.
  by rewrite eq_sym oner_eq0.
apply/diagonal_inP/diagonalizableP; case/diagonal_inP/diagonalizableP: HD=> rs Hrs Hd; exists rs=> //.
apply/mxminpoly_minP; move/mxminpoly_minP: Hd=> Hd; set q := \prod_(_ <- _) _ in Hd *.
have HV : U^T *m B^T = A^T *m U^T by rewrite -!trmx_mul HB.
have HI := horner_intertwine q HV.
rewrite Hd mulmx0 in HI.
have E : U^T *m (adj U)^T = 1%:M by rewrite -trmx_mul HU trmx1.
by rewrite -[LHS]mulmx1 -E mulmxA -HI mul0mx.
Qed.

Lemma compress_unit n r (B : 'M[C]_n) (A : 'M[C]_r) (U : 'M[C]_(n, r)) :
  adj U *m U = 1%:M -> B *m U = U *m A -> B \in unitmx -> A \in unitmx.
Proof.
move=> HU HB Bu; rewrite -row_full_unit; apply/row_fullP.
by exists (adj U *m invmx B *m U); rewrite -(mulmxA _ U) -HB -mulmxA mulKmx.
Qed.

(** sorting keeps a basis of eigenvectors a basis *)
Lemma sorted_unit np cfg r (A Ah : 'M[C]_r) e v : eigenquantities np cfg A = Ok (e, v) ->
  ahat (c_rescale cfg) A = Ok Ah -> (np_eig np Ah).2 \in unitmx -> v \in unitmx.
Proof.
move=> H HA Hu; have [Ah' [HA' [p [He Hv _ _]]]] := sorted_spec H.
move: HA'; rewrite HA=> -[E]; rewrite -{}E in He Hv.
have -> : v = (np_eig np Ah).2 *m perm_mx p^-1.
  apply/matrixP=> i j; have := congr1 (fun c : 'cV_r => c i 0) (Hv j); rewrite mxE => ->.
  by rewrite -col_permE !mxE.
by rewrite unitmx_mul Hu unitmx_perm.
Qed.
Lemma eigs_nz r (A v : 'M[C]_r) e : A \in unitmx -> v \in unitmx -> A *m v = v *m diag_mx e -> forall j, e 0 j != 0.
Proof.
move=> HA Hv E j; have : diag_mx e \in unitmx.
  by have := congr1 (fun M => M \in unitmx) E; rewrite !unitmx_mul HA Hv /= => <-.
by rewrite unitmxE det_diag unitfE => /prodf_neq0 /(_ j isT).
Qed.

(** the ideal library has a sorted eigendecomposition for every admissible sorting *)
Lemma ideal_eigen cfg r (A : 'M[C]_r) : c_rescale cfg = RsNone C -> c_sorted cfg <> SoBad ->
  exists e v, eigenquantities (ideal C) cfg A = Ok (e, v).
Proof.
by rewrite /eigenquantities => -> /=; case: (c_sorted cfg)=> //= _; do 2 eexists.
Qed.
End Compress.
