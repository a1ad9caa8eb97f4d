(** * Proofs about zero-mean, SVD projection and randomized pre-processing *)
From mathcomp Require Import all_ssreflect all_algebra all_field.
From Verif Require Import Py LinAlg Model_Operator Spec_Operator Proofs_OpCore Proofs_Operator Model_PrePostAlg.
From Verif Require Model_Utils.
Set Implicit Arguments. Unset Strict Implicit. Unset Printing Implicit Defensive.
Import GRing.Theory Num.Theory.
Local Open Scope ring_scope.

(** ** vocabulary for the statements *)
Section Spec.
Variable C : numClosedFieldType.
(** np.linalg.qr: an orthonormal factor, for this very argument *)
Definition qr_ok (qr : qr_fun C) n k (Y : 'M[C]_(n, k)) : Prop :=
  exists R, Y = qr _ _ Y *m R /\ adj (qr _ _ Y) *m qr _ _ Y = 1%:M.
(** ... for the calls made by q power iterations *)
Fixpoint rqb_calls (qr : qr_fun C) n m l (X : 'M[C]_(n, m)) (Omega : 'M[C]_(m, l)) (q : nat) : Prop :=
  match q with
  | 0%N => True
  | q'.+1 =>
      let Y := rqb_sketch qr X Omega q' in
      rqb_calls qr X Omega q' /\ qr_ok qr (projT2 Y) /\ qr_ok qr (adj X *m qr _ _ (projT2 Y))
  end.
End Spec.

Section P.
Variable C : numClosedFieldType.

Lemma zero_mean_roundtrip ax n m (X : 'M[C]_(n, m)) :
  zero_mean_post (zero_mean_pre ax X).1 (zero_mean_pre ax X).2 = X.
Proof. by rewrite /zero_mean_post /zero_mean_pre /= subrK. Qed.

Lemma zero_mean_zero ax n m (X : 'M[C]_(n, m)) : (0 < n)%N -> (0 < m)%N ->
  match ax with
  | AxAll => \sum_i \sum_j (zero_mean_pre ax X).2 i j = 0
  | Ax0 => forall j, \sum_i (zero_mean_pre ax X).2 i j = 0
  | Ax1 => forall i, \sum_j (zero_mean_pre ax X).2 i j = 0
  end.
Proof.
move=> n0 m0; have N0 : n%:R != 0 :> C by rewrite pnatr_eq0 -lt0n.
have M0 : m%:R != 0 :> C by rewrite pnatr_eq0 -lt0n.
case: ax => /=.
- under eq_bigr => i _ do (under eq_bigr => j _ do rewrite !mxE; rewrite sumrB).
  rewrite sumrB; set s := \sum_i _.
  rewrite (eq_bigr (fun=> (s / (n * m)%:R) *+ m)); last by move=> i _; rewrite sumr_const card_ord.
  rewrite sumr_const card_ord -mulrnA mulnC -mulr_natr divfK ?subrr //.
  by rewrite natrM mulf_neq0.
- move=> j; under eq_bigr => i _ do rewrite !mxE.
  by rewrite sumrB sumr_const card_ord -[X in _ - X]mulr_natr divfK // subrr.
- move=> i; under eq_bigr => j _ do rewrite !mxE.
  by rewrite sumrB sumr_const card_ord -[X in _ - X]mulr_natr divfK // subrr.
Qed.

(** ** SVD projection *)
Lemma svd_proj_spec np rk n m (X : 'M[C]_(n, m)) : svd_ok np X ->
  let p := svd_proj_pre np rk X in
  let U := (projT2 p).1 in
  map_mx conjC U = U ->
  [/\ U^T *m U = 1%:M, (projT2 p).2 = U^T *m X &
      forall q (Y : 'M[C]_(n, q)), (exists c, Y = U *m c) -> svd_proj_post U (U^T *m Y) = Y].
Proof.
move=> [_ UU _ _ _] p U R.
have O : U^T *m U = 1%:M.
  rewrite -{1}R -[_^T]/(adj U) /U /p /svd_proj_pre /=.
  set rk' := if _ then _ else _; rewrite /compute_svd /svd_trunc.
  move: UU; case E : (np_svd np X) => [[U0 s0] V0] /= UU.
  rewrite take_colsE adjM mulmxA -(mulmxA _ (adj U0)) UU mulmx1.
  by apply: sel_mx_adj; rewrite -ltnS.
split=> // q Y [c ->].
by rewrite /svd_proj_post (mulmxA U^T) O mul1mx.
Qed.

(** ** randomized QB *)
Lemma gram_span n m (X : 'M[C]_(n, m)) : exists W, X = X *m adj X *m W.
Proof.
have S : (adj X <= X *m adj X)%MS.
  have H : (X *m adj X <= adj X)%MS by apply: submxMl.
  rewrite -(geq_leqif (mxrank_leqif_sup H)).
  have K : (kermx (X *m adj X) <= kermx X)%MS.
    apply/sub_kermxP; set k := kermx _.
    have : k *m (X *m adj X) = 0 by apply: mulmx_ker.
    move=> E; apply: (@adj_inj C _ _); rewrite adj0 adjM.
    apply: gram_cancel; rewrite adjK.
    by apply: (@adj_inj C _ _); rewrite !adjM !adjK adj0 -/k mulmxA in E *; rewrite ?adjK E.
  have := mxrankS K; rewrite !mxrank_ker.
  have -> : \rank (adj X) = \rank X.
    by rewrite /adj mxrank_tr mxrank_map.
  have := rank_leq_row X; have := rank_leq_row (X *m adj X).
  move=> a b c.
  by rewrite -(subKn b) -(subKn a); apply: leq_sub2l.
case/submxP: S => D E; exists (adj D).
by apply: (@adj_inj C _ _); rewrite !adjM !adjK.
Qed.

Lemma power_captures (qr : qr_fun C) n m (X : 'M[C]_(n, m)) (Y : sketch C n) :
  qr_ok qr (projT2 Y) -> qr_ok qr (adj X *m qr _ _ (projT2 Y)) ->
  (exists K, X = projT2 Y *m K) -> exists K, X = projT2 (power_iter qr X Y) *m K.
Proof.
move=> [R [E _]] [R2 [E2 _]] [K EX].
have [W1 G1] := gram_span X; have [W2 G2] := gram_span (adj X); rewrite adjK in G2.
exists (R2 *m (R *m K *m W2 *m W1)); rewrite /power_iter /=.
set Q := qr _ _ (projT2 Y) in E E2 *; set Z := qr _ _ _ in E2 *.
rewrite -(mulmxA X) (mulmxA Z) -E2.
have QX : X = Q *m R *m K by rewrite {1}EX {1}E.
have A : adj X *m (Q *m R *m K) *m W2 = adj X by rewrite -QX -G2.
have -> : adj X *m Q *m (R *m K *m W2 *m W1) = adj X *m (Q *m R *m K) *m W2 *m W1 by rewrite !mulmxA.
by rewrite A mulmxA -G1.
Qed.
Lemma rqb_captures (qr : qr_fun C) n m l (X : 'M[C]_(n, m)) (Omega : 'M[C]_(m, l)) q :
  rqb_calls qr X Omega q -> (exists K, X = X *m Omega *m K) ->
  exists K, X = projT2 (rqb_sketch qr X Omega q) *m K.
Proof.
elim: q => [|q IH] //= [H [H1 H2]] HK; apply: power_captures => //.
exact: IH.
Qed.
Lemma proj_fix n m k (X : 'M[C]_(n, m)) (Q : 'M[C]_(n, k)) (K : 'M[C]_(k, m)) :
  adj Q *m Q = 1%:M -> X = Q *m K -> Q *m (adj Q *m X) = X.
Proof. by move=> QQ ->; rewrite (mulmxA (adj Q)) QQ mul1mx. Qed.
Lemma rqb_exact (qr : qr_fun C) n m l (X : 'M[C]_(n, m)) (Omega : 'M[C]_(m, l)) q :
  rqb_calls qr X Omega q -> qr_ok qr (projT2 (rqb_sketch qr X Omega q)) ->
  (exists K, X = X *m Omega *m K) ->
  let Q := projT2 (rqb_Q qr X Omega q) in
  [/\ adj Q *m Q = 1%:M, Q *m (adj Q *m X) = X,
      (projT2 (rand_pre qr X Omega q)).2 = adj Q *m X &
      rand_post (projT2 (rand_pre qr X Omega q)).1 (projT2 (rand_pre qr X Omega q)).2 = X].
Proof.
move=> H [R [E QQ]] HK Q; have [K EX] := rqb_captures H HK.
have QX : Q *m (adj Q *m X) = X.
  have EQ : X = Q *m (R *m K) by rewrite mulmxA -[in RHS]E -EX.
  exact: (proj_fix QQ EQ).
split=> //.
by rewrite /rand_post /rand_pre /= adjK.
Qed.
(** in any case: the compressed data are those of the orthogonal projection *)
Lemma rqb_orth (qr : qr_fun C) n m l (X : 'M[C]_(n, m)) (Omega : 'M[C]_(m, l)) q :
  qr_ok qr (projT2 (rqb_sketch qr X Omega q)) ->
  let Q := projT2 (rqb_Q qr X Omega q) in
  let R := rand_post (projT2 (rand_pre qr X Omega q)).1 (projT2 (rand_pre qr X Omega q)).2 in
  adj Q *m (X - R) = 0 /\ forall Z, frob2 (X - R) <= frob2 (X - Q *m Z).
Proof.
move=> [R0 [E QQ]] Q R.
have RE : R = Q *m (adj Q *m X) by rewrite /R /rand_post /rand_pre /= adjK.
split; first by rewrite RE mulmxBr mulmxA QQ mul1mx subrr.
by move=> Z; rewrite RE; apply: lstsq_optimal; rewrite /is_lstsq QQ mul1mx.
Qed.

(** complex data: U.T is not U^h.  Data along (1, i) are mapped to zero, by
    every SVD *)
Definition circular : 'cV[C]_2 := \col_i (if i == 0 then 1 else 'i).
Lemma svd_complex np rk m (X : 'M[C]_(2, m)) d :
  svd_ok np X -> X = circular *m d ->
  let o := compute_svd np X rk in (forall j, sv_s o 0 j != 0) ->
  svd_proj_post (projT2 (svd_proj_pre np rk X)).1 (projT2 (svd_proj_pre np rk X)).2 = 0.
Proof.
move=> OK Ed o S0.
have V : circular^T *m circular = 0.
  by apply/matrixP=> i j; rewrite !mxE big_ord_recl big_ord1 !mxE /= mulr1 -expr2 sqrCi subrr.
rewrite /svd_proj_post /svd_proj_pre /= -/o.
have [c Ec] : exists c, sv_U o = circular *m c.
  exists (d *m sv_V o *m diag_mx (recip (sv_s o))).
  rewrite !mulmxA -Ed; rewrite -[LHS]mulmx1 -(diag_recip S0) mulmxA; congr (_ *m _).
  move: OK; rewrite /svd_ok /o /compute_svd /svd_trunc.
  case E : (np_svd np X) => [[U0 s0] V0] /= OK.
  set r := np_rank _ _ _ _ _.
  have H : (r <= minn 2 m)%N by rewrite -ltnS.
  by rewrite !take_colsE (trunc_XV H OK).
set X' := (X in _^T *m X); have -> : X' = circular *m d by rewrite /X' -Ed.
by rewrite Ec trmx_mul -(mulmxA c^T) (mulmxA circular^T) V mul0mx !mulmx0.
Qed.
End P.
