From mathcomp Require Import all_ssreflect all_algebra fingroup perm.
From Verif Require Import Py LinAlg Model_Operator Spec_Operator Proofs_OpCore Proofs_Operator Proofs_Operator2 Proofs_Recovery.
Set Implicit Arguments. Unset Strict Implicit. Unset Printing Implicit Defensive.
Import Order.TTheory GRing.Theory Num.Theory.
Local Open Scope ring_scope.

Section Proofs.
Variable C : numClosedFieldType.
Implicit Type np : numpy C.

(** ** C07 *)
Theorem dynamics_entry np r (L : 'rV[C]_r) b opt T (t0 dt : rat) N (ts : 'I_N -> rat) (k0 : int) :
  power_ok np -> dt != 0 -> (forall j : 'I_N, ts j = t0 + (k0 + j%:Z)%:~R * dt) ->
  forall i (j : 'I_N), (L 0 i != 0 \/ anchor opt T <= k0 + j%:Z) ->
  dynamics np L b opt T t0 dt ts i j = L 0 i ^ (k0 + j%:Z - anchor opt T) * b i 0.
Proof.
move=> HP Hdt Ht i j Hz; rewrite mxE Ht [t0 + _]addrC addrK mulfK // -rmorphB /= HP //.
by case: Hz=> H; [left|right; rewrite subr_ge0].
Qed.

Theorem dynamics_anchor np r (L : 'rV[C]_r) b opt T (t0 dt : rat) N (ts : 'I_N -> rat) j :
  power_ok np -> dt != 0 -> ts j = t0 + (anchor opt T)%:~R * dt ->
  col j (dynamics np L b opt T t0 dt ts) = b.
Proof.
move=> HP Hdt Ht; apply/colP=> i; rewrite !mxE Ht [t0 + _]addrC addrK mulfK // subrr.
by have := HP (L 0 i) 0 (or_intror (lexx _)); rewrite expr0z => ->; rewrite mul1r.
Qed.

Theorem dynamics_step np r (L : 'rV[C]_r) b opt T (t0 dt : rat) N (ts : 'I_N -> rat) (k0 : int) :
  power_ok np -> dt != 0 -> (forall j : 'I_N, ts j = t0 + (k0 + j%:Z)%:~R * dt) ->
  forall i (j j' : 'I_N), j' = j.+1 :> nat -> (L 0 i != 0 \/ anchor opt T <= k0 + j%:Z) ->
  dynamics np L b opt T t0 dt ts i j' = L 0 i * dynamics np L b opt T t0 dt ts i j.
Proof.
move=> HP Hdt Ht i j j' E Hz.
have Hz' : L 0 i != 0 \/ anchor opt T <= k0 + j'%:Z.
  case: Hz=> H; [by left|right; apply: (le_trans H)].
  by rewrite ler_add2l lez_nat E.
rewrite !(dynamics_entry _ HP Hdt Ht) // mulrA; congr (_ * _).
have -> : k0 + j'%:Z - anchor opt T = 1 + (k0 + j%:Z - anchor opt T).
  by rewrite E -addn1 PoszD [RHS]addrC !addrA addrAC.
case: Hz=> H; first by rewrite expfzDr.
move: H; rewrite -subr_ge0; case: (_ - _)=> // a _.
by rewrite -PoszD -!exprnP exprS.
Qed.

Theorem dynamics_negative np r (L : 'rV[C]_r) b T n (t0 dt : rat) N (ts : 'I_N -> rat) :
  (0 < n <= T)%N ->
  dynamics np L b (OptInt (- n%:Z)) T t0 dt ts = dynamics np L b (OptInt (T - n)%N%:Z) T t0 dt ts /\
  (forall S : 'M[C]_(r, T), col_index T (- n%:Z) = col_index T (T - n)%N%:Z).
Proof.
case/andP=> H0 HT; split.
  apply/matrixP=> i j; rewrite !mxE /anchor; congr (np_power _ _ (_ - _%:~R) * _).
  rewrite oppr_lt0 ltz_nat H0 /= subzn //.
move=> _; case: n H0 HT=> // n _ HT; rewrite -NegzE /= HT.
by [].
Qed.

(** ** C08 *)
Theorem masked_sum np n r (mk : pred 'I_r) (Phi : 'M[C]_(n, r)) L b opt T t0 dt N (ts : 'I_N -> rat) :
  masked_reconstruction np mk Phi L b opt T t0 dt ts =
  \sum_(k | mk k) col k Phi *m row k (dynamics np L b opt T t0 dt ts).
Proof.
apply/matrixP=> i j; rewrite summxE !mxE (big_enum_val (fun k => (col k Phi *m row k (dynamics np L b opt T t0 dt ts)) i j)).
by apply: eq_bigr=> k _; rewrite !mxE big_ord1 !mxE.
Qed.

Theorem masked_all np n r (Phi : 'M[C]_(n, r)) L b opt T t0 dt N (ts : 'I_N -> rat) (mk : pred 'I_r) :
  (forall k, mk k) -> masked_reconstruction np mk Phi L b opt T t0 dt ts = reconstruction Phi (dynamics np L b opt T t0 dt ts).
Proof.
move=> H; rewrite masked_sum; apply/matrixP=> i j; rewrite summxE !mxE (eq_bigl xpredT) //.
by apply: eq_bigr=> k _; rewrite !mxE big_ord1 !mxE.
Qed.

Theorem masked_partition np n r (I : finType) (F : I -> pred 'I_r) (Phi : 'M[C]_(n, r)) L b opt T t0 dt N (ts : 'I_N -> rat) :
  (forall k, #|[pred i | F i k]| = 1%N) ->
  \sum_i masked_reconstruction np (F i) Phi L b opt T t0 dt ts = reconstruction Phi (dynamics np L b opt T t0 dt ts).
Proof.
move=> H; rewrite -(@masked_all _ _ _ _ _ _ _ _ _ _ _ _ predT) // masked_sum.
under eq_bigr=> i _ do rewrite masked_sum big_mkcond.
rewrite exchange_big; apply: eq_bigr=> k _ /=.
rewrite -big_mkcond sumr_const /=; have -> : #|(fun i => F i k)| = 1%N by exact: H.
by rewrite mulr1n.
Qed.

Theorem masked_empty np n r (mk : pred 'I_r) (Phi : 'M[C]_(n, r)) L b opt T t0 dt N (ts : 'I_N -> rat) :
  (forall k, ~~ mk k) -> masked_reconstruction np mk Phi L b opt T t0 dt ts = 0.
Proof. by move=> H; rewrite masked_sum big_pred0 // => k; exact/negbTE. Qed.

(** ** C17 *)
Definition not_auto (rs : rescale C) : bool := if rs is RsAuto then false else true.

Lemma operator_cfg np n m cfg (X Y : 'M[C]_(n, m)) : not_auto (c_rescale cfg) -> (compute_operator np cfg X Y).1 = cfg.
Proof.
rewrite /compute_operator; case: (np_svd np X)=> [[U s] Vh] /=.
by case: (forward_backward _ _ _ _ _ _)=> [A|x] //=; rewrite /fix_rescale; case: (c_rescale cfg).
Qed.

Lemma fit_cfg np n N m cfg (S : 'M[C]_(n, N)) (X Y : 'M[C]_(n, m)) : not_auto (c_rescale (d_op cfg)) ->
  (fit_pair np cfg S X Y).1 = cfg.
Proof. by case: cfg=> o t p /= H; rewrite operator_cfg. Qed.

Theorem fit_history np cfg (h : seq (dataset C)) n m (S : 'M[C]_(n, m.+1)) : not_auto (c_rescale (d_op cfg)) ->
  fit np (after_fits np cfg h) S = fit np cfg S.
Proof.
move=> H; suff -> : after_fits np cfg h = cfg by [].
elim: h=> //= d h IH; have -> : fit_data np cfg d = cfg; last by [].
by case: d=> [n1 m1 S1|n1 m1 X1 Y1]; rewrite /fit_data /fit /fit_xy fit_cfg.
Qed.

(** with 'auto' the factors of the first fit (its singular values) are frozen in *)
Theorem auto_frozen np cfg n m (S : 'M[C]_(n, m.+1)) : d_tlsq cfg = 0 -> c_rescale (d_op cfg) = RsAuto C ->
  c_fb (d_op cfg) = false ->
  let s := sv_s (compute_svd np (col' ord_max S) (c_rank (d_op cfg))) in
  c_rescale (d_op (fit np cfg S).1) = RsArr [seq s 0 j | j <- enum 'I_(sv_r (compute_svd np (col' ord_max S) (c_rank (d_op cfg))))].
Proof.
move=> Ht Ha Hfb; rewrite /fit /fit_pair /compute_tlsq Ht /= /compute_operator /forward_backward Hfb /compute_svd /svd_trunc.
by case: (np_svd np _)=> [[U s] Vh] /=; rewrite /fix_rescale Ha.
Qed.

Theorem auto_frozen_wrong_rank np cfg f n m (S : 'M[C]_(n, m.+1)) : c_rescale (d_op cfg) = RsArr f -> c_fb (d_op cfg) = false ->
  size f != sv_r (compute_svd np (compute_tlsq np (col' ord_max S) (col' ord0 S) (d_tlsq cfg)).1 (c_rank (d_op cfg))) ->
  (fit np cfg S).2 = Err ValueError.
Proof.
move=> Ha Hfb Hs; rewrite /fit /fit_pair /=.
move: (compute_tlsq _ _ _ _) Hs => [X Y] /=.
rewrite /compute_operator /forward_backward Hfb /compute_svd /svd_trunc.
case: (np_svd np _)=> [[U s] Vh] /= Hr; rewrite /fix_rescale Ha /eigenquantities Ha /= Hr //.
Qed.
End Proofs.
