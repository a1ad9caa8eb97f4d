(** * Linear algebra of the variable projection: least squares, Jacobian, damped step *)
From mathcomp Require Import all_ssreflect all_fingroup all_algebra.
From Verif Require Import Py LinAlg Model_Operator Spec_Operator Proofs_OpCore Proofs_Operator Ideal.
From Verif Require Import Spec_Subspace Proofs_Subspace Proofs_EDMD Model_BOP Spec_BOP.
Set Implicit Arguments. Unset Strict Implicit. Unset Printing Implicit Defensive.
Import Order.TTheory GRing.Theory Num.Theory.
Local Open Scope ring_scope.

Section Jac.
Variable C : numClosedFieldType.
Variables (np : numpy C) (x : ext C).

Lemma lstsq_mxP a b p (A : 'M[C]_(a, b)) (H : 'M[C]_(a, p)) : (forall j, lstsq_ok np A (col j H)) ->
  is_lstsq A H (lstsq_mx np A H).
Proof.
move=> L; rewrite /is_lstsq; apply/matrixP=> i j.
have E : col j (lstsq_mx np A H) = np_lstsq np A (col j H) by apply/colP=> k; rewrite !mxE.
have := congr1 (fun M : 'cV[C]_b => M i 0) (L j); rewrite -E.
by rewrite -!colM ![col _ _ _ _]mxE.
Qed.

Variable o : vopts C.
Variables (M IS : nat) (H : 'M[C]_(M, IS)) (t : 'rV[C]_M).
Variables (r : nat) (al : 'rV[C]_r) (B : 'M[C]_(r, IS)).
Notation Phi := (exp_mx x t al).

(** no singular value is cut by the tolerance unless it is zero *)
Definition no_cut : Prop :=
  forall i j : 'I_(minn M r), i = 0%N :> nat -> (np_svd np Phi).1.2 0 j != 0 -> M%:R * feps C * (np_svd np Phi).1.2 0 i < (np_svd np Phi).1.2 0 j.

Lemma feps_ge0 : 0 <= feps C. Proof. by rewrite invr_ge0 exprn_ge0 // ler0n. Qed.

Lemma irankE : svd_ok np Phi -> no_cut -> irank (M%:R * feps C) (np_svd np Phi).1.2 = \rank Phi :> nat.
Proof.
rewrite /svd_ok /no_cut; case: (np_svd np Phi)=> [[U s] Vh] /= HS N.
have [_ _ _ Hp _] := HS; have HR := svd_rank HS.
have P j : (j \in [pred j | [exists i : 'I_(minn M r), (nat_of_ord i == 0%N) && (M%:R * feps C * s 0 i < s 0 j)]]) = (j < \rank Phi)%N.
  rewrite inE HR; apply/existsP/idP=> [[i /andP [_ L]]|Nz].
    by rewrite gt_eqF //; apply: le_lt_trans L; rewrite !mulr_ge0 ?ler0n ?feps_ge0.
  have k0 : (0 < minn M r)%N by case: j {Nz} => j; case: (minn M r).
  by exists (Ordinal k0)=> /=; apply: N.
rewrite /irank (eq_card P); have L : (\rank Phi <= minn M r)%N by rewrite leq_min rank_leq_row rank_leq_col.
by rewrite (card_lt L) inordK.
Qed.

(** the Jacobian of the variable projection, or Kaufman's approximation of it *)
Lemma djac_colE P k : svd_ok np Phi -> no_cut -> is_pinv Phi P ->
  djac_col np x o H t al B k =
  (1%:M - Phi *m P) *m exp_deriv x t al k *m B +
  (if vo_fulljac o then adj P *m adj (exp_deriv x t al k) *m (H - Phi *m B) else 0).
Proof.
move=> HS N HP; have E := irankE HS N; move: HS E; rewrite /svd_ok /djac_col /resid {N}.
case: (np_svd np Phi)=> [[U s] Vh] /= HS E.
rewrite !take_colsE.
move: (irank _ _) E=> q E; have := sel_full HS E (leq_ord q); have := sr_ge0 (leq_ord q) HS.
move: (U *m _) (s *m _) (adj Vh *m _)=> Uq sq Vq Sp X.
have HP' := exact_pinv X Sp.
rewrite (pinv_unique HP HP').
have [EX HU HV Hs] := X.
have E1 : Phi *m (Vq *m diag_mx (recip sq) *m adj Uq) = Uq *m adj Uq.
  by rewrite {1}EX -!mulmxA (mulmxA (adj Vq)) HV mul1mx (mulmxA (diag_mx sq)) diag_recip // mul1mx.
rewrite E1 mulmxBl mul1mx !mulmxA; case: ifP=> _; last by rewrite addr0.
congr (_ + _); do 2 congr (_ *m _).
rewrite !adjM adjK adj_diag mulmxA; do 2 congr (_ *m _).
by congr diag_mx; apply/rowP=> j; rewrite !mxE conj_Creal // rpredV ger0_real.
Qed.

(** ** The damped step *)
Lemma triu_id n (R : 'M[C]_n) : (forall i j : 'I_n, (j < i)%N -> R i j = 0) -> triu R = R.
Proof. by move=> L; apply/matrixP=> i j; rewrite mxE; case: leqP=> // /L ->. Qed.
Lemma adj_perm n (s : 'S_n) : adj (perm_mx s : 'M[C]_n) = perm_mx (s^-1)%g.
Proof. by rewrite -tr_perm_mx; apply/matrixP=> i j; rewrite adjE !mxE conjC_nat. Qed.
Lemma adj_col_mx a b n (A : 'M[C]_(a, n)) (D : 'M[C]_(b, n)) : adj (col_mx A D) = row_mx (adj A) (adj D).
Proof. by rewrite /adj map_col_mx tr_col_mx. Qed.

Lemma deltaP lam : let J := djac np x o H t al B in
  qr_ok x J -> (forall R y, lstsq_ok np (R : 'M[C]_(r + r, r)) y) ->
  (adj J *m J + `|lam| ^+ 2 *: diag_mx (\row_k `|scales np x o H t al B 0 k| ^+ 2)) *m (delta np x o H t al B lam)^T =
  adj J *m ravelF (H - Phi *m B).
Proof.
move=> J; rewrite /qr_ok /delta -/J -/(resid x H t al B).
move: (resid x H t al B) (scales np x o H t al B) => R0 sc.
case: (x_qr x J)=> [[Q R] p] /= [HQ HR HJ] L.
rewrite (triu_id HR); set sp := \row_j sc 0 (p j); set rj := col_mx _ _; set rhs := col_mx _ _.
have := L rj rhs; rewrite /lstsq_ok /is_lstsq; move: (np_lstsq np rj rhs)=> d.
have -> : (\row_j d ((p^-1)%g j) 0)^T = perm_mx (p^-1)%g *m d.
  by rewrite -row_permE; apply/colP=> j; rewrite !mxE.
set Pi := perm_mx (p^-1)%g.
have Pi1 : Pi *m adj Pi = 1%:M by rewrite adj_perm -perm_mxM mulgV perm_mx1.
have HJ' : J *m Pi = Q *m R by rewrite -HJ -col_permE; apply/matrixP=> i j; rewrite !mxE.
have HD : diag_mx sp = adj Pi *m diag_mx sc *m Pi.
  rewrite adj_perm invgK -row_permE -col_permE; apply/matrixP=> i j; rewrite !mxE (inj_eq perm_inj).
  by case: eqP=> [->|]; rewrite ?mulr0n.
have DD : diag_mx (\row_k `|sc 0 k| ^+ 2) = adj (diag_mx sc) *m diag_mx sc.
  by rewrite adj_diag mulmx_diag; congr diag_mx; apply/rowP=> k; rewrite !mxE normCK mulrC.
have E1 : adj R *m R = adj Pi *m (adj J *m J) *m Pi.
  transitivity (adj (J *m Pi) *m (J *m Pi)); last by rewrite adjM !mulmxA.
  by rewrite HJ' adjM -mulmxA (mulmxA (adj Q)) HQ mul1mx.
have E2 : adj R *m (adj Q *m ravelF R0) = adj Pi *m (adj J *m ravelF R0).
  by rewrite !mulmxA -!adjM HJ'.
rewrite adj_col_mx !mul_row_col mulmx0 addr0 E2 E1 adjZ -scalemxAl -scalemxAr scalerA HD -normCKC.
rewrite !adjM adjK => K.
have K2 : adj Pi *m ((adj J *m J + `|lam| ^+ 2 *: diag_mx (\row_k `|sc 0 k| ^+ 2)) *m (Pi *m d)) = adj Pi *m (adj J *m ravelF R0).
  rewrite -K DD mulmxDl mulmxDr mulmxDl !mulmxA; congr (_ + _).
  rewrite -!scalemxAl -!scalemxAr -!scalemxAl; congr (_ *: _).
  by rewrite -!mulmxA (mulmxA Pi (adj Pi)) Pi1 mul1mx.
have := congr1 (mulmx Pi) K2; by rewrite !(mulmxA Pi) Pi1 !mul1mx.
Qed.
End Jac.

(** ** QR decompositions exist *)
Section QR.
Variable C : numClosedFieldType.
Lemma qr_exists a b (J : 'M[C]_(a, b)) : (b <= a)%N -> exists Q R, is_qr J Q R 1%g.
Proof.
elim: b a J=> [|b IH] [|a] J // L; only 1-2: by exists 0, 0; split; [rewrite [RHS]flatmx0 [LHS]flatmx0 | case | rewrite [RHS]thinmx0 [LHS]thinmx0].
rewrite ltnS in L.
pose v := col ord0 J.
have [u [Hu [c Hc]]] : exists u : 'cV[C]_a.+1, adj u *m u = 1%:M /\ exists c : C, v = c *: u.
  have [Z|N] := eqVneq v 0.
    exists (delta_mx ord0 0); split; last by exists 0; rewrite scale0r.
    rewrite adj_col_sqr (bigD1 ord0) //= big1 => [|k Hk]; rewrite !mxE ?eqxx ?normr1 ?expr1n ?addr0 //.
    by rewrite (negbTE Hk) normr0 expr0n.
  have [c [Hc Hu]] := unitize N; exists (c *: v); split=> //; exists c^-1.
  by rewrite scalerA mulVf // scale1r.
have [G [HG Gu]] := complete Hu.
have HG' := unitary_r HG.
have [K KJ] : exists K : 'M[C]_(1 + a, 1 + b), K = adj G *m J by exists (adj G *m J).
have KE (i : 'I_(1 + a)) : K i (lshift b 0) = c * (i == lshift a 0)%:R.
  have K0 : col ord0 (K : 'M[C]_(a.+1, b.+1)) = c *: delta_mx ord0 0.
    by rewrite KJ colM -/v Hc -Gu colE -scalemxAr mulmxA HG mul1mx.
  have := congr1 (fun w : 'cV[C]_a.+1 => w i 0) K0; rewrite [X in X = _ -> _]mxE [X in _ = X -> _]mxE.
  rewrite [X in _ = _ * X -> _]mxE andbT.
  have -> : lshift b (0 : 'I_1) = ord0 :> 'I_b.+1 by apply/val_inj.
  by have -> : lshift a (0 : 'I_1) = ord0 :> 'I_a.+1 by apply/val_inj.
have K1 : dlsubmx K = 0 /\ ulsubmx K = c%:M.
  by split; apply/matrixP=> i j; rewrite !ord1 !mxE KE ?eqxx ?mulr1 // eq_rlshift mulr0.
have [Q' [R' [Q1 R1 E1]]] := IH a (drsubmx K) L.
pose D : 'M[C]_(1 + a, 1 + b) := block_mx 1%:M 0 0 Q'.
pose R : 'M[C]_(1 + b) := block_mx c%:M (ursubmx K) 0 R'.
have DD : adj D *m D = 1%:M.
  rewrite /D adj_block !adj0 !adj1 mulmx_block.
  by rewrite !mulmx0 !mul0mx !addr0 !mulmx1 !add0r Q1 -scalar_mx_block.
have E1' : drsubmx K = Q' *m R' by rewrite -E1; apply/matrixP=> i j; rewrite [RHS]mxE perm1.
have DR : D *m R = K.
  rewrite /D /R mulmx_block !mul0mx !mulmx0 !mul1mx !addr0 !add0r -E1'.
  by rewrite -(proj1 K1) -(proj2 K1) submxK.
have RT (i j : 'I_(1 + b)) : (j < i)%N -> R i j = 0.
  rewrite /R; case: (splitP i)=> i' Ei; case: (splitP j)=> j' Ej.
  + by rewrite Ei Ej !ord1 ltnn.
  + by rewrite Ei Ej ord1 ltn0.
  + move=> _; have -> : i = rshift 1 i' by apply/val_inj.
    have -> : j = lshift b j' by apply/val_inj.
    by rewrite block_mxEdl mxE.
  rewrite Ei Ej ltn_add2l => Lt.
  have -> : i = rshift 1 i' by apply/val_inj.
  have -> : j = rshift 1 j' by apply/val_inj.
  by rewrite block_mxEdr R1.
exists (G *m D), R; split.
- by rewrite adjM -mulmxA (mulmxA (adj G)) HG mul1mx; exact: DD.
- exact: RT.
have -> : \matrix_(i, j) J i ((1 : 'S_b.+1)%g j) = J by apply/matrixP=> i j; rewrite mxE perm1.
transitivity (G *m K); first by rewrite KJ mulmxA HG' mul1mx.
by rewrite -DR -[RHS]mulmxA.
Qed.

Definition qrb a b (J : 'M[C]_(a, b)) (w : 'M[C]_(a, b) * 'M[C]_b) : bool :=
  [&& adj w.1 *m w.1 == 1%:M, [forall i : 'I_b, forall j : 'I_b, (j < i)%N ==> (w.2 i j == 0)] & J == w.1 *m w.2].
Lemma qrb_exists a b (J : 'M[C]_(a, b)) : exists w, (b <= a)%N ==> qrb J w.
Proof.
case: (leqP b a)=> [L|_]; last by exists (0, 0).
have [Q [R [H1 H2 H3]]] := qr_exists J L; exists (Q, R); apply/and3P; split=> /=.
- exact/eqP.
- by apply/forallP=> i; apply/forallP=> j; apply/implyP=> /H2 /eqP.
by rewrite -H3; apply/eqP/matrixP=> i j; rewrite mxE perm1.
Qed.
Definition ideal_qr a b (J : 'M[C]_(a, b)) : 'M[C]_(a, b) * 'M[C]_b * 'S_b := (xchoose (qrb_exists J), 1%g).
Lemma ideal_qrP a b (J : 'M[C]_(a, b)) : (b <= a)%N -> is_qr J (ideal_qr J).1.1 (ideal_qr J).1.2 (ideal_qr J).2.
Proof.
move=> L; have /implyP /(_ L) := xchooseP (qrb_exists J) => /and3P [/eqP H1 /forallP H2 /eqP H3]; split=> //=.
  by move=> i j Lt; have /forallP /(_ j) := H2 i; rewrite Lt => /eqP.
by rewrite -H3; apply/matrixP=> i j; rewrite mxE perm1.
Qed.

(** externals that meet their contracts; the exponential is a free choice *)
Definition ideal_ext (ex : C -> C) : ext C := {|
  x_exp := ex; x_qr := ideal_qr;
  x_pop := fun r i0 _ => i0;
  x_empty := fun r => 0;
  x_choice := fun _ M b => take b (enum 'I_M);
  x_randn := fun _ r => 0 |}.
Lemma ideal_ext_ok ex : [/\ pop_ok (ideal_ext ex), choice_ok (ideal_ext ex) &
  forall a b (J : 'M[C]_(a, b)), (b <= a)%N -> qr_ok (ideal_ext ex) J].
Proof.
split; [by [] | | by move=> a b J; exact: ideal_qrP].
move=> k M b L; split; first by rewrite take_uniq // enum_uniq.
by rewrite size_takel // -cardE card_ord.
Qed.
End QR.
