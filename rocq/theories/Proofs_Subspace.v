From Coq Require Import QArith.
From mathcomp Require Import all_ssreflect all_fingroup all_algebra.
From Verif Require Import Py LinAlg Model_Operator Spec_Operator Proofs_OpCore Proofs_Operator Proofs_Operator2 Proofs_Recovery.
From Verif Require Import Model_Subspace Spec_Subspace.
From Verif Require Model_Utils.
Set Implicit Arguments. Unset Strict Implicit. Unset Printing Implicit Defensive.
Import Order.TTheory GRing.Theory Num.Theory.
Local Open Scope ring_scope.

Section Proofs.
Variable C : numClosedFieldType.

(** ** The rank is the number of non-zero singular values *)
Lemma orth_row_free k m (V : 'M[C]_(k, m)) : V *m adj V = 1%:M -> row_free V.
Proof. by move=> H; apply/row_freeP; exists (adj V). Qed.
Lemma orth_row_full n k (U : 'M[C]_(n, k)) : adj U *m U = 1%:M -> row_full U.
Proof. by move=> H; apply/row_fullP; exists (adj U). Qed.

Lemma card_below a k : (a <= k)%N -> #|[pred i : 'I_k | (i < a)%N]| = a.
Proof. by move=> H; rewrite -sum1_card (eq_bigl (fun i : 'I_k => (i < a)%N)) // (big_ord_narrow H) /= sum1_card card_ord. Qed.

Lemma rank_desc k (s : 'rV[C]_k) : (forall j, 0 <= s 0 j) -> (forall i j : 'I_k, (i <= j)%N -> s 0 j <= s 0 i) ->
  forall j : 'I_k, (j < \rank (diag_mx s))%N = (s 0 j != 0).
Proof.
move=> Hp Hd; pose c := #|[pred j | s 0 j != 0]|.
have Hlt (j : 'I_k) : (s 0 j != 0) = (j < c)%N.
  have down (i l : 'I_k) : (i <= l)%N -> s 0 l != 0 -> s 0 i != 0.
    move=> Hil Hl; apply: lt0r_neq0; apply: lt_le_trans (Hd _ _ Hil); by rewrite lt_def Hl Hp.
  apply/idP/idP=> H.
    have : (#|[pred i : 'I_k | (i < j.+1)%N]| <= c)%N.
      apply: subset_leq_card; apply/subsetP=> i; rewrite !inE ltnS => Hi; exact: down Hi H.
    by rewrite (card_below (ltn_ord j)).
  apply/eqP=> H'.
  have : (c <= #|[pred i : 'I_k | (i < j)%N]|)%N.
    apply: subset_leq_card; apply/subsetP=> i; rewrite !inE => Hi; rewrite ltnNge.
    by apply/negP=> Hji; move: (down _ _ Hji Hi); rewrite H' eqxx.
  by rewrite (card_below (ltnW (ltn_ord j))) leqNgt H.
have Hc : (c <= k)%N by rewrite -[X in (_ <= X)%N](card_ord k); exact: max_card.
pose s' : 'rV[C]_k := \row_j (if s 0 j == 0 then 1 else s 0 j).
have E : diag_mx s = pid_mx c *m diag_mx s'.
  apply/matrixP=> i j; rewrite mul_mx_diag !mxE.
  have [<-|N] := eqVneq i j; last by rewrite (_ : (i == j :> nat) = false) ?mul0r //; apply/negbTE.
  rewrite eqxx mulr1n -Hlt /=; have [->|N] := eqVneq (s 0 i) 0; first by rewrite mul0r.
  by rewrite mul1r.
have U : diag_mx s' \in unitmx.
  rewrite unitmxE det_diag unitfE; apply/prodf_neq0=> j _; rewrite mxE.
  by case: (altP (s 0 j =P 0))=> [_|H]; [exact: oner_neq0|exact: H].
move=> j; rewrite Hlt E mxrankMfree ?row_free_unit // rank_pid_mx // .
Qed.

Lemma svd_rank n m k (X : 'M[C]_(n, m)) (U : 'M[C]_(n, k)) s (Vh : 'M[C]_(k, m)) : is_svd X U s Vh ->
  forall j : 'I_k, (j < \rank X)%N = (s 0 j != 0).
Proof.
case=> E HU HV Hp Hd j; rewrite -rank_desc //; congr (_ < _)%N.
by rewrite E mxrankMfree ?orth_row_free // (eqmxMfull _ (orth_row_full HU)).
Qed.

Section Fit.
Variables (np : numpy C) (mrank : forall n m, 'M[C]_(n, m) -> 'I_(minn n m).+1).

Lemma sel_full n m k (X : 'M[C]_(n, m)) (U : 'M[C]_(n, k)) s (Vh : 'M[C]_(k, m)) r : is_svd X U s Vh -> r = \rank X -> (r <= k)%N ->
  exact_svd X (U *m sel_mx C k r) (s *m sel_mx C k r) (adj Vh *m sel_mx C k r).
Proof.
move=> HS Er Hr; have HN := svd_rank HS.
split; [|exact: (trunc_UU Hr HS)|exact: (trunc_VV Hr HS)|]; last first.
  by move=> j; rewrite -(sel_mx_colE s Hr) mxE -HN /= -Er.
have E : diag_mx s = sel_mx C k r *m diag_mx (s *m sel_mx C k r) *m adj (sel_mx C k r).
  rewrite -diag_sel // -mulmxA; apply/matrixP=> i j; rewrite mul_diag_mx !mxE.
  have [Hi|Hi] := ltnP i r.
    rewrite (bigD1 (Ordinal Hi)) //= big1 ?addr0 => [|l Hl].
      by rewrite adjE !mxE eqxx mul1r conjC_nat eq_sym -mulr_natr.
    rewrite !mxE; case: eqP=> [e|_]; rewrite ?mul0r //; by case/eqP: Hl; apply/val_inj.
  have -> : s 0 i = 0 by apply/eqP; rewrite -[_ == _]negbK -HN -Er -leqNgt.
  by rewrite mul0rn mul0r.
have -> : U *m sel_mx C k r *m diag_mx (s *m sel_mx C k r) *m adj (adj Vh *m sel_mx C k r) = U *m diag_mx s *m Vh.
  by rewrite adjM adjK E !mulmxA.
by case: HS.
Qed.

Lemma reduced_exact n m (X : 'M[C]_(n, m)) : svd_rank_ok np mrank X ->
  let d := reducedsvd np mrank X in exact_svd X (sv_U d) (sv_s d) (sv_V d).
Proof.
case; rewrite /svd_ok /reducedsvd /svd_trunc; case: (np_svd np X)=> [[U s] Vh] /= HS HR.
by rewrite !take_colsE; apply: sel_full=> //; exact: leq_ord.
Qed.

Lemma exact_rank n m r (X : 'M[C]_(n, m)) (U : 'M[C]_(n, r)) s V : exact_svd X U s V -> r = \rank X.
Proof.
case=> E HU HV Hs; rewrite E.
have HV' : row_free (adj V) by apply/row_freeP; exists V.
rewrite mxrankMfree // mxrankMfree ?row_free_unit.
  by apply/esym/eqP; exact: orth_row_full.
by rewrite unitmxE det_diag unitfE; apply/prodf_neq0=> j _.
Qed.
Lemma exact_pinv n m r (X : 'M[C]_(n, m)) (U : 'M[C]_(n, r)) s V : exact_svd X U s V -> (forall j, 0 <= s 0 j) ->
  is_pinv X (V *m diag_mx (recip s) *m adj U).
Proof.
case=> E HU HV Hs Hp.
have E1 : X *m (V *m diag_mx (recip s) *m adj U) = U *m adj U.
  by rewrite E -!mulmxA (mulmxA (adj V)) HV mul1mx (mulmxA (diag_mx s)) diag_recip // mul1mx.
have E2 : V *m diag_mx (recip s) *m adj U *m X = V *m adj V.
  by rewrite E -!mulmxA (mulmxA (adj U)) HU mul1mx (mulmxA (diag_mx (recip s))) recip_diag // mul1mx.
split; rewrite ?E1 ?E2 ?adjM ?adjK //.
- by rewrite E !mulmxA -(mulmxA U) HU mulmx1.
- by rewrite !mulmxA -(mulmxA V) HV mulmx1.
Qed.

Lemma slice_colsE n k (M : 'M[C]_(n, k)) r : slice_cols M r = M *m sel_mx C k (minn r k).
Proof. by rewrite -(sel_mx_colE M (geq_minr r k)). Qed.
Lemma sel_all k r : (k <= r)%N -> sel_mx C k (minn r k) *m adj (sel_mx C k (minn r k)) = 1%:M.
Proof.
move=> H; apply/matrixP=> i j; rewrite !mxE.
have Hi : (i < minn r k)%N by rewrite (minn_idPr H).
rewrite (bigD1 (Ordinal Hi)) //= big1 ?addr0 => [|l Hl].
  by rewrite adjE !mxE eqxx mul1r conjC_nat eq_sym.
by rewrite !mxE; case: eqP=> [e|_]; rewrite ?mul0r //; case/eqP: Hl; apply/val_inj.
Qed.

(** ** fit, taken apart *)
Lemma pastE n m (S : 'M[C]_(n, m.+4)) : col_mx (shifted 0 S) (shifted 1 S) = past S.
Proof. by apply/matrixP=> i j; rewrite !mxE; case: split=> i'; rewrite !mxE. Qed.
Lemma futureE n m (S : 'M[C]_(n, m.+4)) : col_mx (shifted 2 S) (shifted 3 S) = future S.
Proof. by apply/matrixP=> i j; rewrite !mxE; case: split=> i'; rewrite !mxE. Qed.

Lemma fit_subspace_inv cfg n m (S : 'M[C]_(n, m.+4)) f : fit_subspace np mrank cfg S = Ok f ->
  let O := projected np mrank S in
  exists r e v, sub_rank (mrank O) n (sc_rank cfg) = Ok r /\
  let Q := slice_cols (sv_U (reducedsvd np mrank O)) r in
  let d := reducedsvd np mrank (usubmx Q) in
  let A := least_square_operator None 0 (sv_U d) (sv_s d) (sv_V d) (dsubmx Q) in
  [/\ eigenquantities np (sub_op cfg) A = Ok (e, v),
      sf_out f = SubOut Q (OpFit (sv_U d) (sv_s d) (sv_V d) A e v
        (sub_modes cfg (scale_cols (dsubmx Q *m sv_V d) (recip (sv_s d))) e v)) &
      amplitudes np true (sc_opt cfg) S (usubmx (so_Uq (sf_out f))) (so_op (sf_out f)) = Ok (sf_b f)].
Proof.
rewrite /fit_subspace pastE futureE /sub_operator -/(projected np mrank S) /=.
case: (sub_rank _ _ _)=> [r|x] //=.
case E: (eigenquantities _ _ _)=> [[e v]|x] //=.
by case Ea: (amplitudes _ _ _ _ _ _)=> [b|x] //= [<-]; exists r, e, v.
Qed.
End Fit.
End Proofs.
