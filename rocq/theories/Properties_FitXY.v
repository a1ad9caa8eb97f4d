(** * C14: DMD.fit with two arguments *)
From mathcomp Require Import all_ssreflect all_algebra.
From Verif Require Import Py LinAlg Model_Operator Spec_Operator Ideal Properties_EndToEnd.
From Verif Require Model_Utils.
Set Implicit Arguments. Unset Strict Implicit. Unset Printing Implicit Defensive.
Import GRing.Theory Num.Theory.
Local Open Scope ring_scope.

(** fit(S[:, :-1], S[:, 1:]) is fit(S), amplitudes included, if they are taken at a snapshot counted from the start *)
Theorem C14_two_arguments (C : numClosedFieldType) (np : numpy C) n m (cfg : dmd_cfg C) (S : 'M[C]_(n, m.+1)) (X Y : 'M[C]_(n, m)) :
  (forall i (j : 'I_m), X i j = S i (widen_ord (leqnSn m) j) /\ Y i j = S i (inord j.+1)) ->
  (d_opt cfg = OptBool false /\ (0 < m)%N) \/ (exists2 a : nat, d_opt cfg = OptInt a & (a < m)%N) ->
  fit_xy np cfg X Y = fit np cfg S.
Proof.
move=> H O.
have EX : X = col' ord_max S.
  by apply/matrixP=> i j; rewrite mxE; have [-> _] := H i j; congr (S _ _); apply: val_inj; rewrite /= /bump leqNgt ltn_ord.
have EY : Y = col' ord0 S.
  by apply/matrixP=> i j; rewrite mxE; have [_ ->] := H i j; congr (S _ _); apply: val_inj; rewrite /= /bump leq0n inordK // ltnS ltn_ord.
rewrite /fit_xy /fit -EX -EY /fit_pair; congr (_, _); case: ((compute_operator _ _ _ _).2) => [o|e] //=.
suff -> : amplitudes np (c_exact (d_op cfg)) (d_opt cfg) X X o = amplitudes np (c_exact (d_op cfg)) (d_opt cfg) S X o by [].
have K : forall a (Ha : (a < m)%N), col (Ordinal Ha) X = col (Ordinal (ltn_trans Ha (ltnSn m))) S.
  by move=> a Ha; apply/matrixP=> i j; rewrite !mxE; have [-> _] := H i (Ordinal Ha); congr (S _ _); apply: val_inj.
have I : forall a N (Ha : (a < N)%N), col_index N (Posz a) = Some (Ordinal Ha) by move=> a N Ha; exact: insubT.
case: O => [[-> H0]|[a -> Ha]]; rewrite /amplitudes.
  by rewrite (I 0%N m H0) (I 0%N m.+1 (ltn_trans H0 (ltnSn m))) K.
by rewrite (I a m Ha) (I a m.+1 (ltn_trans Ha (ltnSn m))) K.
Qed.
(** Any pair: the amplitudes are the least squares coordinates of a column of the first argument, chosen as Python indexes, or with
    opt=True and exact modes the solution of the normal equations for all its columns *)
Theorem C14_pair_amplitudes (C : numClosedFieldType) (np : numpy C) n m (cfg cfg' : dmd_cfg C) (X Y : 'M[C]_(n, m)) f :
  fit_xy np cfg X Y = (cfg', Ok f) ->
  [/\ d_opt cfg = OptBool false -> exists2 j : 'I_m, j = 0%N :> nat & df_b f = np_lstsq np (of_modes (df_op f)) (col j X),
      forall z, d_opt cfg = OptInt z ->
        exists2 j : 'I_m, (if 0 <= z then j%:Z = z else j%:Z = z + m%:Z) & df_b f = np_lstsq np (of_modes (df_op f)) (col j X)
    & d_opt cfg = OptBool true -> c_exact (d_op cfg) ->
        let P := opt_P (of_modes (df_op f)) (of_eigs (df_op f)) m in
        P \in unitmx /\ df_b f = np_solve np P (\col_i (\sum_(k < m) of_eigs (df_op f) 0 i ^+ k * \sum_l (X l k)^* * of_modes (df_op f) l i)^*)].
Proof.
rewrite /fit_xy /fit_pair; case: (compute_operator _ _ _ _) => c [o|e] //= [_].
case EA: (amplitudes _ _ _ _ _ _)=> [b|] //= [<-] /=; split.
- by move=> E; move: EA; rewrite E /amplitudes; rewrite -[col_index m 0]/(insub 0%N); case: insubP=> // j _ Ej [<-]; exists j.
- move=> z E; move: EA; rewrite E /amplitudes /col_index; case: z E => a E.
    by case: insubP=> // j _ Ej [<-]; exists j; rewrite // -Ej.
  case: ifP=> // L; case: insubP=> // j _ Ej [<-]; exists j => //=; rewrite Ej NegzE -subzn // addrC //.
- move=> E X1; move: EA; rewrite E /amplitudes X1; case: ifP=> // HP [<-]; split=> //; congr np_solve.
  apply/matrixP=> i j; rewrite !mxE; congr (_^*); under [RHS]eq_bigr do rewrite big_distrr /=; rewrite exchange_big /=.
  by apply: eq_bigr=> l _; rewrite !mxE big_distrl /=; apply: eq_bigr=> k _; rewrite !mxE mulrA.
Qed.
(** The case of C14_end_to_end: fit(X, Y) recovers the system, its prediction of each column of X is that of Y *)
Theorem C14_two_end_to_end (C : numClosedFieldType) exact so n m (B : 'M[C]_n) (S : 'M[C]_(n, m.+1)) (X Y : 'M[C]_(n, m)) : so <> SoBad ->
  diagonal_in B -> B \in unitmx -> linear_data B S -> (n <= m)%N -> S != 0 ->
  (forall i (j : 'I_m), X i j = S i (widen_ord (leqnSn m) j) /\ Y i j = S i (inord j.+1)) ->
  let cfg := ranked C exact so (\rank (col' ord_max S)) in
  exists f, fit_xy (ideal C) cfg X Y = (cfg, Ok f) /\
  forall j, predict (ideal C) (of_modes (df_op f)) (of_eigs (df_op f)) (col j X) = col j Y.
Proof.
move=> Hso HD HU HL Hn HS H cfg; have [f [HR [_ HP]]] := C14_end_to_end exact Hso HD HU HL Hn HS.
have m0 : (0 < m)%N.
  case: (posnP n) => [n0|/leq_trans->//]; case/eqP: HS; apply/matrixP=> i; case: i => i Hi; exfalso; by rewrite n0 in Hi.
exists f; split; first by rewrite (@C14_two_arguments C (ideal C) n m cfg S X Y H (or_introl (conj erefl m0))); exact: (rec_fit HR).
move=> j; have EX : col j X = col (widen_ord (leqnSn m) j) S by apply/matrixP=> i k; rewrite !mxE; have [-> _] := H i j.
have EY : col j Y = col (inord j.+1) S by apply/matrixP=> i k; rewrite !mxE; have [_ ->] := H i j.
by rewrite EX EY; apply: HP; rewrite inordK // ltnS ltn_ord.
Qed.
Print Assumptions C14_two_end_to_end.
Print Assumptions C14_two_arguments.
Print Assumptions C14_pair_amplitudes.
