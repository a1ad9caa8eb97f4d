(** * C26 (continued): the numerical pre/post-processing steps *)
From mathcomp Require Import all_ssreflect all_algebra all_field.
From Verif Require Import Py LinAlg Model_Operator Spec_Operator Proofs_Operator Examples_Operator Model_PrePostAlg Proofs_PrePostAlg.
From Verif Require Model_Utils.
Set Implicit Arguments. Unset Strict Implicit. Unset Printing Implicit Defensive.
Import GRing.Theory Num.Theory.
Local Open Scope ring_scope.
Local Notation AC := algCnumClosedField.

(** zero mean: the data handed on have mean zero along the chosen axis, and
    adding the mean back restores them *)
Theorem C26_zero_mean (C : numClosedFieldType) ax n m (X : 'M[C]_(n, m)) : (0 < n)%N -> (0 < m)%N ->
  zero_mean_post (zero_mean_pre ax X).1 (zero_mean_pre ax X).2 = X /\
  match ax with
  | AxAll => \sum_i \sum_j (zero_mean_pre ax X).2 i j = 0
  | Ax0 => forall j, \sum_i (zero_mean_pre ax X).2 i j = 0
  | Ax1 => forall i, \sum_j (zero_mean_pre ax X).2 i j = 0
  end.
Proof. by move=> n0 m0; split; [exact: zero_mean_roundtrip | exact: zero_mean_zero]. Qed.
Print Assumptions C26_zero_mean.

(** SVD projection with real singular vectors: the identity on their span *)
Theorem C26_svd_projection (C : numClosedFieldType) np rk n m (X : 'M[C]_(n, m)) : svd_ok np X ->
  let p := svd_proj_pre np rk X in
  let U := (projT2 p).1 in
  map_mx conjC U = U ->
  [/\ U^T *m U = 1%:M, (projT2 p).2 = U^T *m X &
      forall q (Y : 'M[C]_(n, q)), (exists c, Y = U *m c) -> svd_proj_post U (U^T *m Y) = Y].
Proof. exact: svd_proj_spec. Qed.
Print Assumptions C26_svd_projection.

(** complex data: data along the vector (1, i) come back as zero *)
Theorem C26_svd_projection_refuted (C : numClosedFieldType) np rk m (X : 'M[C]_(2, m)) d :
  svd_ok np X -> X = circular C *m d ->
  (forall j, sv_s (compute_svd np X rk) 0 j != 0) ->
  svd_proj_post (projT2 (svd_proj_pre np rk X)).1 (projT2 (svd_proj_pre np rk X)).2 = 0.
Proof. by move=> H E S; apply: (svd_complex H E S). Qed.
Print Assumptions C26_svd_projection_refuted.

(** randomized projection: exact as soon as the test matrix captures the range
    of the data, for any number of power iterations; otherwise the best
    approximation in the range of the basis *)
Theorem C26_randomized (C : numClosedFieldType) (qr : qr_fun C) n m l (X : 'M[C]_(n, m)) (Omega : 'M[C]_(m, l)) q :
  rqb_calls qr X Omega q -> qr_ok qr (projT2 (rqb_sketch qr X Omega q)) ->
  (exists K, X = X *m Omega *m K) ->
  let Q := projT2 (rqb_Q qr X Omega q) in
  [/\ adj Q *m Q = 1%:M, Q *m (adj Q *m X) = X,
      (projT2 (rand_pre qr X Omega q)).2 = adj Q *m X &
      rand_post (projT2 (rand_pre qr X Omega q)).1 (projT2 (rand_pre qr X Omega q)).2 = X].
Proof. exact: rqb_exact. Qed.
Print Assumptions C26_randomized.

Theorem C26_randomized_best (C : numClosedFieldType) (qr : qr_fun C) n m l (X : 'M[C]_(n, m)) (Omega : 'M[C]_(m, l)) q :
  qr_ok qr (projT2 (rqb_sketch qr X Omega q)) ->
  let Q := projT2 (rqb_Q qr X Omega q) in
  let R := rand_post (projT2 (rand_pre qr X Omega q)).1 (projT2 (rand_pre qr X Omega q)).2 in
  adj Q *m (X - R) = 0 /\ forall Z, frob2 (X - R) <= frob2 (X - Q *m Z).
Proof. exact: rqb_orth. Qed.
Print Assumptions C26_randomized_best.

(** ** examples *)
Example ex_C26_zero_mean : zero_mean_post (zero_mean_pre Ax1 ex_S).1 (zero_mean_pre Ax1 ex_S).2 = ex_S.
Proof. exact: (C26_zero_mean Ax1 ex_S isT isT).1. Qed.

(** the identity matrix, with the routines of Examples_Operator *)
Lemma ex_proj_U rk : (projT2 (svd_proj_pre ex_np rk (1%:M : 'M[AC]_2))).1 = \matrix_(i, j) (i == j :> nat)%:R.
Proof. by apply/matrixP=> i j; rewrite !mxE. Qed.
Example ex_C26_svd rk (Y : 'M[AC]_2) :
  let U := (projT2 (svd_proj_pre ex_np rk (1%:M : 'M[AC]_2))).1 in
  (exists c, Y = U *m c) -> svd_proj_post U (U^T *m Y) = Y.
Proof.
have [] := C26_svd_projection (rk := rk) ex_svd; last by move=> _ _; apply.
by rewrite ex_proj_U; apply/matrixP=> i j; rewrite !mxE rmorph_nat.
Qed.

(** one snapshot (1, i): U = (1, i)/sqrt 2, s = sqrt 2 *)
Definition circ_np : numpy AC := {|
  np_svd := fun n m X => (\matrix_(i, j) (if i == 0%N :> nat then c2 else c2 * 'i), const_mx (c2 * 2%:R), const_mx 1);
  np_rank := fun k _ _ _ _ => ord_max; np_eig := np_eig ex_np; np_sqrtm := np_sqrtm ex_np;
  np_norm := np_norm ex_np; np_lstsq := np_lstsq ex_np; np_solve := np_solve ex_np; np_pinv := np_pinv ex_np;
  np_power := np_power ex_np |}.
Lemma circ_svd : svd_ok circ_np (circular AC).
Proof.
split=> /=.
- apply/matrixP; apply: ord2P => j; rewrite (ord1 j) !mxE big_ord1 !mxE big_ord1 !mxE /= mulr1n mulr1.
  + by rewrite mulrA c2_sq mulVf // pnatr_eq0.
  + by rewrite mulrAC mulrA c2_sq mulVf ?mul1r // pnatr_eq0.
- apply/matrixP=> i j; rewrite !mxE big_ord_recl big_ord1 !mxE /= !(ord1 i) !(ord1 j) eqxx.
  rewrite rmorphM /= c2_conj conjCi c2_sq mulrN mulNr mulrACA c2_sq -expr2 sqrCi mulrN1 opprK.
  by rewrite -mulr2n -mulr_natr mulVf // pnatr_eq0.
- apply/matrixP=> i j; rewrite !mxE big_ord1 !mxE !(ord1 i) !(ord1 j) eqxx rmorph1 mulr1 //.
- by move=> j; rewrite mxE mulr_ge0 ?ler0n // invr_ge0 sqrtC_ge0 ler0n.
- by move=> i j _; rewrite !mxE.
Qed.
Example ex_C26_svd_complex rk : circular AC != 0 /\
  svd_proj_post (projT2 (svd_proj_pre circ_np rk (circular AC))).1 (projT2 (svd_proj_pre circ_np rk (circular AC))).2 = 0.
Proof.
split.
  by apply/eqP=> /matrixP /(_ ord0 ord0); rewrite !mxE /= => /eqP; rewrite oner_eq0.
apply: (@C26_svd_projection_refuted AC circ_np rk 1 (circular AC) 1%:M circ_svd); first by rewrite mulmx1.
move=> j; rewrite !mxE mulf_neq0 // ?pnatr_eq0 // invr_eq0 sqrtC_eq0 pnatr_eq0 //.
Qed.

(** test matrix 1, data 1, two power iterations *)
Definition ex_qr : qr_fun AC := fun n k _ => \matrix_(i, j) (i == j :> nat)%:R.
Lemma ex_qr1 : ex_qr (1%:M : 'M[AC]_2) = 1%:M.
Proof. exact: ex_delta. Qed.
Lemma ex_qr_ok (Y : 'M[AC]_2) : Y = 1%:M -> qr_ok ex_qr Y.
Proof. by move=> ->; exists 1%:M; rewrite ex_qr1 adj1 !mulmx1. Qed.
Lemma ex_sketch q : rqb_sketch ex_qr (1%:M : 'M[AC]_2) (1%:M : 'M[AC]_2) q = existT (fun k => 'M[AC]_(2, k)) 2%N 1%:M.
Proof.
elim: q => [|q IH]; first by rewrite /rqb_sketch /= mulmx1.
by rewrite /rqb_sketch /= -/(rqb_sketch _ _ _ q) IH /power_iter /= ex_qr1 adj1 !mulmx1; congr existT; rewrite ex_qr1 mulmx1.
Qed.
Example ex_C26_randomized q :
  rand_post (projT2 (rand_pre ex_qr (1%:M : 'M[AC]_2) (1%:M : 'M[AC]_2) q)).1
            (projT2 (rand_pre ex_qr (1%:M : 'M[AC]_2) (1%:M : 'M[AC]_2) q)).2 = 1%:M.
Proof.
have calls : rqb_calls ex_qr (1%:M : 'M[AC]_2) (1%:M : 'M[AC]_2) q.
  elim: q => [|q IH] //=; split=> //; rewrite ex_sketch /=.
  by split; apply: ex_qr_ok => //; rewrite ex_qr1 adj1 mulmx1.
have [] // := C26_randomized calls.
- by rewrite ex_sketch; apply: ex_qr_ok.
- by exists 1%:M; rewrite !mulmx1.
Qed.
