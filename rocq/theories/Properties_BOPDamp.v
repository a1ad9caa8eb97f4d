(** C41, the damping of the variable projection: which step lengths are tried, what is accepted, how the damping changes. *)
From mathcomp Require Import all_ssreflect all_algebra.
From Verif Require Import Py LinAlg Model_Operator Model_BOP.
Set Implicit Arguments. Unset Strict Implicit. Unset Printing Implicit Defensive.
Import Order.TTheory GRing.Theory Num.Theory.
Local Open Scope ring_scope.

Section Damp.
Variables (C : numClosedFieldType) (np : numpy C) (x : ext C) (o : vopts C) (con : constr C) (prox : option (prox_fun C)).
Variables (M IS : nat) (H : 'M[C]_(M, IS)) (t : 'rV[C]_M).
Local Notation step := (step np x o con prox H t).
Local Notation err := (rel_error np x H t).
Local Notation iter_ := (lm_iter np x o con prox H t).
Local Notation search := (lm_search np x o con prox H t).

Lemma searchP n r (al : 'rV[C]_r) B lam c lam' c' : search n al B lam c = Ok (lam', c') ->
  err c.1 c.2 < err al B = false ->
  (exists k, [/\ (0 < k <= n)%N, lam' = lam * vo_lamup o ^+ k, step al B lam' = Ok c', err c'.1 c'.2 < err al B
     & forall j, (0 < j < k)%N -> exists d, step al B (lam * vo_lamup o ^+ j) = Ok d /\ err d.1 d.2 < err al B = false])
  \/ (err c'.1 c'.2 < err al B = false /\
      forall j, (0 < j <= n)%N -> exists d, step al B (lam * vo_lamup o ^+ j) = Ok d /\ err d.1 d.2 < err al B = false).
Proof.
elim: n lam c => [|n IH] lam c /=.
  by move=> [_ <-] E; right; split=> // j; rewrite leqn0; case: j.
case S: (step _ _ _) => [d|] //=; case: ifP => E.
  move=> [<- <-] _; left; exists 1%N; split=> //.
  by move=> j; case: j => [|[|]].
move=> /IH /(_ E) [[k [/andP [K0 Kn] El Es Ee Hj]]|[Ec Hj]].
  left; exists k.+1; split=> //; first by rewrite El exprS mulrA.
  move=> [|[|j]] // /andP [_ L]; first by exists d; rewrite expr1.
  by have := Hj j.+1 L; rewrite (exprS _ j.+1) mulrA.
right; split=> // [[|[|j]]] // L; first by exists d; rewrite expr1.
by have := Hj j.+1 L; rewrite (exprS _ j.+1) mulrA.
Qed.

(** One iteration takes the first of the step lengths lam, lam*lamup, ..., lam*lamup^maxlam that lowers the error, keeps its
    damping (which is adapted if it was the first one tried) ... *)
Theorem C41_iteration r (al : 'rV[C]_r) B lam lam' al' B' : iter_ al B lam = Ok (Some (lam', (al', B'))) ->
  exists k, [/\ (k <= vo_maxlam o)%N, step al B (lam * vo_lamup o ^+ k) = Ok (al', B'), err al' B' < err al B,
    forall j, (j < k)%N -> exists d, step al B (lam * vo_lamup o ^+ j) = Ok d /\ ~~ (err d.1 d.2 < err al B)
  & lam' = if k == 0%N then rescale_lambda lam (ratio np x o H t al B (delta np x o H t al B lam) (al', B')) else lam * vo_lamup o ^+ k].
Proof.
rewrite /lm_iter; case S: (step _ _ _) => [c|] //=; case: ifP => E.
  by move=> [<- Ec]; exists 0%N; rewrite expr0 mulr1 S -Ec; move: E; rewrite Ec.
case F: (search _ _ _ _ _) => [[l d]|] //=; case: ifP => // E2 [<- Ed].
have [[k [/andP [K0 Kn] El Es _ Hj]]|[]] := searchP F E; last by rewrite E2.
exists k; rewrite -El Es Ed; move: E2; rewrite Ed => E2; split=> //; last by case: (k) K0.
move=> [|j] L; first by exists c; rewrite expr0 mulr1 S E.
by have [d' [Sd Ed']] := Hj j.+1 L; exists d'; rewrite Sd Ed'.
Qed.
(** ... and it gives up only if none of them does. *)
Theorem C41_gives_up r (al : 'rV[C]_r) B lam : iter_ al B lam = Ok None ->
  forall k, (k <= vo_maxlam o)%N -> exists d, step al B (lam * vo_lamup o ^+ k) = Ok d /\ ~~ (err d.1 d.2 < err al B).
Proof.
rewrite /lm_iter; case S: (step _ _ _) => [c|] //=; case: ifP => E //.
case F: (search _ _ _ _ _) => [[l d]|] //=; case: ifP => // E2 _ k K.
case: k K => [|k] K; first by exists c; rewrite expr0 mulr1 S E.
have [[q [_ _ _ E3 _]]|[_ Hj]] := searchP F E; first by rewrite E3 in E2.
by have [d' [Sd Ed']] := Hj k.+1 K; exists d'; rewrite Sd Ed'.
Qed.

(** After a first success the damping is at least a third of what it was and at most twice; it does not grow if the
    improvement is at least half of the predicted one, does not fall if it is at most half, and is a third from one on. *)
Theorem C41_damping (lam q : C) : 0 <= lam -> 0 <= q ->
  [/\ lam / 3%:R <= rescale_lambda lam q <= 2%:R * lam, 2%:R^-1 <= q -> rescale_lambda lam q <= lam,
      q <= 2%:R^-1 -> lam <= rescale_lambda lam q & 1 <= q -> rescale_lambda lam q = lam / 3%:R].
Proof.
move=> L Q; rewrite /rescale_lambda /Model_BOP.maxC; set u := 2%:R * q - 1; set v := 1 - u ^+ 3.
have Ru : u \is Num.real by rewrite realB ?realM ?realn ?real1 // ger0_real.
have Rv : v \is Num.real by rewrite realB ?real1 // realX.
have N3 : (- u) ^+ 3 = - u ^+ 3 by rewrite exprNn -signr_odd /= expr1 mulN1r.
have U1 : -1 <= u by rewrite ler_subr_addr addNr mulr_ge0 // ler0n.
have V2 : v <= 2%:R.
  rewrite ler_subl_addr -ler_subl_addl -[2%:R]/(1 + 1) opprD addrA subrr add0r.
  suff : (- u) ^+ 3 <= 1 by rewrite N3 ler_oppl.
  case: (real_leP (real0 _) Ru) => [P|P].
    apply: (le_trans _ ler01); rewrite N3 oppr_le0; exact: exprn_ge0.
  by apply: exprn_ile1; rewrite ?oppr_ge0 ?(ltW P) // ler_oppl.
have T0 : (0 : C) < 3%:R^-1 by rewrite invr_gt0 ltr0n.
have T1 : (3%:R^-1 : C) <= 1 by rewrite invf_le1 ?ltr0n // ler1n.
have T2 : (3%:R^-1 : C) <= 2%:R by rewrite (le_trans T1) // ler1n.
have RT : (3%:R^-1 : C) \is Num.real by rewrite realV realn.
have V1 : 2%:R^-1 <= q -> v <= 1.
  move=> Hq; rewrite ler_subl_addr ler_addl exprn_ge0 // subr_ge0.
  by rewrite -(ler_pmul2l (_ : (0 : C) < 2%:R)) ?ltr0n // mulfV ?pnatr_eq0 // in Hq.
have V3 : q <= 2%:R^-1 -> 1 <= v.
  move=> Hq; rewrite -[X in X <= _]addr0 ler_add2l oppr_ge0.
  have U0 : u <= 0.
    rewrite subr_le0; have : 2%:R * q <= 2%:R * 2%:R^-1 by rewrite ler_pmul2l // ltr0n.
    by rewrite mulfV // pnatr_eq0.
  have : 0 <= (- u) ^+ 3 by rewrite exprn_ge0 // oppr_ge0.
  by rewrite N3 oppr_ge0.
have V4 : 1 <= q -> v <= 0.
  move=> Hq; rewrite subr_le0 exprn_ege1 // ler_subr_addr.
  by rewrite -[X in X <= _]mulr1 -[1 + 1]/(2%:R) mulr1 -[X in X <= _]mulr1 ler_pmul2l ?ltr0n.
split.
- apply/andP; split.
    by apply: ler_wpmul2l => //; case: ifP => // /ltW.
  rewrite mulrC; apply: ler_wpmul2r => //; by case: ifP.
- move=> /V1 V; rewrite -[X in _ <= X]mulr1; apply: ler_wpmul2l => //; by case: ifP.
- move=> /V3 V; rewrite -[X in X <= _]mulr1; apply: ler_wpmul2l => //.
  by case: ifP => // /negbT; rewrite -real_leNgt // => W; apply: le_trans V W.
- move=> /V4 V; case: ifP => // W; by have := lt_trans T0 (lt_le_trans W V); rewrite ltxx.
Qed.

(** The column scales: the norms of the columns of the Jacobian, kept between 10^-6 and 1; all 1 without use_levmarq. *)
Theorem C41_scales r (al : 'rV[C]_r) B k : (forall n m (A : 'M[C]_(n, m)), 0 <= np_norm np A) ->
  let s := scales np x o H t al B 0 k in let nk := np_norm np (col k (djac np x o H t al B)) in
  if vo_levmarq o then [/\ (10%:R ^+ 6)^-1 <= s <= 1, (10%:R ^+ 6)^-1 <= nk <= 1 -> s = nk,
                          1 <= nk -> s = 1 & nk <= (10%:R ^+ 6)^-1 -> s = (10%:R ^+ 6)^-1]
  else s = 1.
Proof.
move=> Hn /=; rewrite mxE; case: (vo_levmarq o) => //.
set nk := np_norm np _; set e := (10%:R ^+ 6)^-1; have N0 : 0 <= nk by exact: Hn.
have E0 : 0 < e by rewrite invr_gt0 exprn_gt0 // ltr0n.
have E1 : e <= 1 by rewrite invf_le1 ?exprn_gt0 ?ltr0n // exprn_ege1 // ler1n.
have Rn : nk \is Num.real by rewrite ger0_real.
have Re : e \is Num.real by rewrite gtr0_real.
rewrite /Model_BOP.maxC /Model_BOP.minC; split.
- case: (real_ltP (real1 _) Rn) => A; case: (boolP (_ < e)) => B'; rewrite ?lexx ?E1 //.
    by rewrite A (real_leNgt Re Rn) B'.
- move=> /andP [A1 A2]; have -> : (1 < nk) = false by apply: negbTE; rewrite -real_leNgt // real1.
  by have -> : (nk < e) = false by apply: negbTE; rewrite -real_leNgt.
- move=> A; have -> : (if 1 < nk then 1 else nk) = 1.
    case: (real_ltP (real1 _) Rn) => A' //; by apply/eqP; rewrite eq_le A' A.
  by have -> : (1 < e) = false by apply: negbTE; rewrite -real_leNgt // real1.
- move=> A; have -> : (if 1 < nk then 1 else nk) = nk.
    case: (real_ltP (real1 _) Rn) => A' //; by apply/eqP; rewrite eq_le (ltW A') (le_trans A E1).
  case: (real_ltP Rn Re) => A' //; by apply/eqP; rewrite eq_le A A'.
Qed.
End Damp.

(** Damping 1: an improvement as predicted divides it by three, half of it leaves it as it is. *)
Example C41_damping_ex (C : numClosedFieldType) :
  @rescale_lambda C 1 1 = 3%:R^-1 /\ @rescale_lambda C 1 2%:R^-1 = 1.
Proof.
have [_ A1 A2 _] := @C41_damping C 1 2%:R^-1 ler01 ltac:(by rewrite invr_ge0 ler0n).
split; first by have [_ _ _ ->] := @C41_damping C 1 1 ler01 ler01; rewrite ?mul1r.
by apply/eqP; rewrite eq_le A1 ?A2.
Qed.
Print Assumptions C41_iteration.
Print Assumptions C41_gives_up.
Print Assumptions C41_damping.
Print Assumptions C41_scales.
