(** * Situations in which a plausible claim about DMD fails *)
From mathcomp Require Import all_ssreflect all_algebra all_field fingroup perm.
From Verif Require Import Py LinAlg Model_Operator Spec_Operator Proofs_OpCore Proofs_Operator Proofs_Operator2 Proofs_Recovery Proofs_Dynamics Examples_Operator.
From Verif Require Model_Utils.
Set Implicit Arguments. Unset Strict Implicit. Unset Printing Implicit Defensive.
Import Order.TTheory GRing.Theory Num.Theory.
Local Open Scope ring_scope.
Local Notation AC := algCnumClosedField.

(** ** Optimal amplitudes of projected modes *)
Theorem opt_projected_biased : exists np (cfg cfg' : dmd_cfg AC) (B : 'M[AC]_2) (S : 'M[AC]_(2, 3)) f,
  [/\ recoverable np cfg cfg' B S f, d_opt cfg = OptBool true /\ c_exact (d_op cfg) = false,
      (forall r (P : 'M[AC]_r) q, P \in unitmx -> solve_ok np P q), power_ok np &
      forall ts : 'I_3 -> rat, ts ord0 = 0 ->
      col ord0 (reconstruction (of_modes (df_op f)) (dynamics np (of_eigs (df_op f)) (df_b f) (d_opt cfg) 3 0 1 ts))
      = (2%:R / 3%:R) *: col ord0 S].
Proof.
exists ex_np, (ex_cfg false (OptBool true)), (ex_cfg false (OptBool true)), swap2, ex_S, (ex_fopt false).
split=> //; [exact: ex_recoverable_opt | by move=> r P q; exact: ex_solve | exact: ex_power_spec | ].
move=> ts Ht; rewrite reconstruction_col (dynamics_anchor _ _ ex_power_spec (oner_neq0 _)); last by rewrite Ht.
rewrite ex_opt_biased -scalemxAr; congr (_ *: _).
have R := ex_recoverable_opt false; have [_ _ HC] := recovery_core R.
have [c Hc] := HC ord0.
exact: (lstsq_range (ex_lstsq false (col ord0 ex_S)) Hc).
Qed.

(** ** Linear data whose last snapshot leaves the span of the others *)
Definition ni_np : numpy AC := {|
  np_svd := fun n m X => (\matrix_(i, j) (i == j :> nat)%:R, const_mx 1, \matrix_(i, j) (i == j :> nat)%:R);
  np_rank := fun k _ _ _ _ => ord_max;
  np_eig := fun r A => (const_mx 1, 1%:M);
  np_sqrtm := fun r M => M;
  np_norm := fun n m X => sqrtC (frob2 X);
  np_lstsq := fun n r M y => adj M *m y;
  np_solve := fun r P q => invmx P *m q;
  np_pinv := fun n r M => adj M;
  np_power := ex_power |}.
Definition ni_S : 'M[AC]_(2, 2) := \matrix_(i, j) (i <= j)%N%:R.
Definition ni_B : 'M[AC]_2 := \matrix_(i, j) (j <= i)%N%:R.
Definition ni_cfg : dmd_cfg AC := ex_cfg false (OptBool false).
Definition ni_o : op_fit AC 2 1 :=
  let X := col' ord_max ni_S in let Y := col' ord0 ni_S in
  let U := take_cols (np_svd ni_np X).1.1 ord_max in let s := take_cols (np_svd ni_np X).1.2 ord_max in
  let V := take_cols (adj (np_svd ni_np X).2) ord_max in
  let A := least_square_operator None (np_norm ni_np X) U s V Y in
  let l := eig_pairs (np_eig ni_np A).1 (np_eig ni_np A).2 in
  OpFit U s V A (pairs_eigs l) (pairs_vecs l) (compute_modes (d_op ni_cfg) (np_norm ni_np X) Y U s V (pairs_vecs l)).
Definition ni_f : dmd_fit AC 2 1 := @DmdFit AC 2 1 ni_o (np_lstsq ni_np (of_modes ni_o) (col ord0 ni_S)).
Definition e0 : 'cV[AC]_2 := \col_i (i == 0%N :> nat)%:R.

Lemma ni_fit : fit ni_np ni_cfg ni_S = (ni_cfg, Ok ni_f).
Proof.
have -> : fit ni_np ni_cfg ni_S = (ni_cfg,
  let! b := amplitudes ni_np false (OptBool false) ni_S (col' ord_max ni_S) ni_o in Ok (@DmdFit AC 2 1 ni_o b)) by [].
by congr pair; rewrite /amplitudes /= insubT //=; congr (Ok (DmdFit (adj _ *m col _ _))); apply/val_inj.
Qed.
Lemma ni_X : col' ord_max ni_S = e0.
Proof. by apply/matrixP; apply: ord2P=> j; rewrite (ord1 j) !mxE. Qed.
Lemma ni_U : of_U ni_o = e0.
Proof. by rewrite /= take_max; apply/matrixP; apply: ord2P=> j; rewrite (ord1 j) !mxE. Qed.
Lemma ni_V : of_V ni_o = 1%:M.
Proof. by rewrite /= take_max; apply/matrixP=> i j; rewrite (ord1 i) (ord1 j) adjE !mxE /= conjC1. Qed.
Lemma ni_s : of_s ni_o = const_mx 1.
Proof. by rewrite /= take_max. Qed.
Lemma ni_vecs : of_vecs ni_o = 1%:M.
Proof. by apply/matrixP=> i j; rewrite [LHS]mxE (nth_eig_pairs _ _ j) !mxE. Qed.
Lemma ni_eigs : of_eigs ni_o = const_mx 1.
Proof. by apply/rowP=> j; rewrite [LHS]mxE (nth_eig_pairs _ _ j) !mxE. Qed.
Lemma ni_modes : of_modes ni_o = e0.
Proof.
transitivity (of_U ni_o *m of_vecs ni_o); first by rewrite [LHS]/= modes_proj.
by rewrite ni_U ni_vecs mulmx1.
Qed.
Lemma e0_unit : adj e0 *m e0 = 1%:M.
Proof.
apply/matrixP=> i j; rewrite (ord1 i) (ord1 j) !mxE big_ord_recl big_ord1 !adjE !mxE /= conjC1 conjC0 mul0r addr0 mulr1 //.
Qed.
Lemma ni_Atilde : of_Atilde ni_o = 1%:M.
Proof.
transitivity (adj (of_U ni_o) *m col' ord0 ni_S *m of_V ni_o *m diag_mx (recip (of_s ni_o))); first by rewrite [LHS]/= ls_op.
rewrite ni_U ni_V ni_s recip1 diag_const_mx !mulmx1.
apply/matrixP=> i j; rewrite (ord1 i) (ord1 j) !mxE big_ord_recl big_ord1 !adjE !mxE /= conjC1 conjC0 mul0r addr0 mulr1 //.
Qed.

Theorem not_invariant : exists np (cfg cfg' : dmd_cfg AC) (B : 'M[AC]_2) (S : 'M[AC]_(2, 2)) f,
  [/\ linear_fit np cfg cfg' B S f, pinv_ok np (of_modes (df_op f)) &
      predict np (of_modes (df_op f)) (of_eigs (df_op f)) (col ord0 S) != col ord_max S].
Proof.
exists ni_np, ni_cfg, ni_cfg, ni_B, ni_S, ni_f; split.
- split=> //.
  + exact: ni_fit.
  + move=> j j' E; apply/colP=> i; rewrite !mxE big_ord_recl big_ord1 !mxE.
    by move: j j' E; apply: ord2P; apply: ord2P=> //= _; move: i; apply: ord2P; rewrite /= ?mulr1 ?mulr0 ?addr0 ?mul0r.
  + rewrite ni_X; split=> /=.
    * apply/matrixP; apply: ord2P=> j; rewrite (ord1 j) !mxE big_ord1 mul_mx_diag !mxE /= ?mulr1 ?mul0r //.
    * by apply/matrixP=> i j; rewrite (ord1 i) (ord1 j) !mxE big_ord_recl big_ord1 !adjE !mxE /= conjC1 conjC0 mul0r addr0 mulr1.
    * by apply/matrixP=> i j; rewrite (ord1 i) (ord1 j) !mxE big_ord1 !adjE !mxE /= conjC1 mulr1.
    * by move=> j; rewrite mxE ler01.
    * by move=> i j _; rewrite !mxE.
  + change (df_op ni_f) with ni_o; rewrite ni_U ni_s ni_V ni_X; split; first by rewrite diag_const_mx adj1 !mulmx1.
    by move=> j; rewrite mxE oner_neq0.
  + change (df_op ni_f) with ni_o; rewrite ni_Atilde => Ah [<-]; split=> /=; first by rewrite diag_const_mx.
    by move=> j; rewrite (ord1 j) big_ord1 mxE eqxx normr1 expr1n.
  + by change (df_op ni_f) with ni_o; rewrite ni_vecs unitmx1.
- change (df_op ni_f) with ni_o; rewrite ni_modes; split=> /=.
  + by rewrite -mulmxA e0_unit mulmx1.
  + by rewrite e0_unit mul1mx.
  + by rewrite adjM adjK.
  + by rewrite adjM adjK.
- change (df_op ni_f) with ni_o; rewrite ni_modes ni_eigs /predict diag_const_mx mulmx1 /=.
  have -> : col ord0 ni_S = e0 by apply/colP; apply: ord2P; rewrite !mxE.
  rewrite -mulmxA e0_unit mulmx1; apply/eqP=> /(congr1 (fun c : 'cV_2 => c (lift ord0 ord0) 0)).
  by rewrite !mxE /= => /eqP; rewrite eq_sym oner_eq0.
Qed.

(** ** forward_backward=True mixes two bases *)
Definition fb_X : 'M[AC]_2 := diag_mx (\row_j (if j == 0%N :> nat then 2%:R else 1)).
Definition fb_B : 'M[AC]_2 := \matrix_(i, j) (if i == j then 0 else if i == 0%N :> nat then 1 else 3%:R).
Definition is_fbX n m (X : 'M[AC]_(n, m)) : bool := [exists i, exists j, X i j == 2%:R].
Definition fb_np : numpy AC := {|
  np_svd := fun n m X =>
    if is_fbX X then (\matrix_(i, j) (i == j :> nat)%:R, \row_j (if j == 0%N :> nat then 2%:R else 1), \matrix_(i, j) (i == j :> nat)%:R)
    else (\matrix_(i, j) (i != j :> nat)%:R, \row_j (if j == 0%N :> nat then 6%:R else 1), \matrix_(i, j) (i == j :> nat)%:R);
  np_rank := fun k _ _ _ _ => ord_max;
  np_eig := fun r A => (\row_j A j j, 1%:M);
  np_sqrtm := fun r M => diag_mx (\row_j (if j == 0%N :> nat then 1 else 3%:R));
  np_norm := fun n m X => sqrtC (frob2 X);
  np_lstsq := fun n r M y => adj M *m y;
  np_solve := fun r P q => invmx P *m q;
  np_pinv := fun n r M => adj M;
  np_power := ex_power |}.
Definition fb_cfg : op_cfg AC := OpCfg (Model_Utils.RInt (BinNums.Zneg BinNums.xH)) false true (RsNone AC) SoNone None.
Definition fb_Y := fb_B *m fb_X.

Lemma fb_YE : fb_Y = \matrix_(i, j) (if i == j then 0 else if i == 0%N :> nat then 1 else 6%:R).
Proof.
rewrite /fb_Y /fb_X mul_mx_diag; apply/matrixP; apply: ord2P; apply: ord2P; rewrite !mxE /= ?mul0r ?mul1r //.
by rewrite -natrM.
Qed.
Lemma fb_isX : is_fbX fb_X.
Proof. by apply/existsP; exists ord0; apply/existsP; exists ord0; rewrite !mxE /= mulr1n. Qed.
Lemma fb_isY : is_fbX fb_Y = false.
Proof.
apply/existsP=> -[i /existsP [j]]; rewrite fb_YE !mxE; case: ifP=> _; first by rewrite (eqr_nat _ 0 2).
by case: ifP=> _; rewrite ?eqr_nat // (eqr_nat _ 1 2).
Qed.
Lemma diag_svd (a b : AC) : (\matrix_(i < 2, j < 2) (i == j :> nat)%:R) *m diag_mx (\row_j (if j == 0%N :> nat then a else b)) *m
  (\matrix_(i < 2, j < 2) (i == j :> nat)%:R) = diag_mx (\row_j (if j == 0%N :> nat then a else b)).
Proof. by rewrite ex_delta mul1mx mulmx1. Qed.
Lemma swap_delta : (\matrix_(i < 2, j < 2) (i != j :> nat)%:R) = swap2.
Proof. by apply/matrixP=> i j; rewrite !mxE. Qed.
Lemma fb_svdX : svd_ok fb_np fb_X.
Proof.
rewrite /svd_ok /fb_np /= fb_isX /=; split.
- by rewrite diag_svd.
- by rewrite ex_delta adj1 mulmx1.
- by rewrite ex_delta adj1 mulmx1.
- by move=> j; rewrite mxE; case: ifP=> _; rewrite ?ler0n ?ler01.
- by apply: ord2P; apply: ord2P; rewrite !mxE //= => _; rewrite (ler_nat _ 1 2).
Qed.
Lemma fb_svdY : svd_ok fb_np fb_Y.
Proof.
rewrite /svd_ok /fb_np /= fb_isY /=; split.
- rewrite swap_delta ex_delta mulmx1 mul_mx_diag fb_YE; apply/matrixP; apply: ord2P; apply: ord2P; by rewrite !mxE /= ?mul0r ?mul1r.
- by rewrite swap_delta swap_unitary.
- by rewrite ex_delta adj1 mulmx1.
- by move=> j; rewrite mxE; case: ifP=> _; rewrite ?ler0n ?ler01.
- by apply: ord2P; apply: ord2P; rewrite !mxE //= => _; rewrite (ler_nat _ 1 6).
Qed.

Lemma fb_lsX : least_square_operator None (np_norm fb_np fb_X)
    (take_cols (np_svd fb_np fb_X).1.1 ord_max) (take_cols (np_svd fb_np fb_X).1.2 ord_max)
    (take_cols (adj (np_svd fb_np fb_X).2) ord_max) fb_Y = fb_B.
Proof.
rewrite ls_op !take_max /= fb_isX /= ex_delta adj1 mul1mx mulmx1 mul_mx_diag fb_YE.
apply/matrixP; apply: ord2P; apply: ord2P; rewrite !mxE /= ?mul0r ?invr1 ?mulr1 //.
by rewrite (_ : 6%:R = 3%:R * 2%:R) ?mulfK ?pnatr_eq0 // -natrM.
Qed.
Definition fb_back : 'M[AC]_2 := \matrix_(i, j) (if i == j then 0 else if i == 0%N :> nat then 1 else 3%:R^-1).
Lemma fb_lsY : least_square_operator None (np_norm fb_np fb_X)
    (take_cols (np_svd fb_np fb_Y).1.1 ord_max) (take_cols (np_svd fb_np fb_Y).1.2 ord_max)
    (take_cols (adj (np_svd fb_np fb_Y).2) ord_max) fb_X = fb_back.
Proof.
rewrite ls_op !take_max /= fb_isY /= ex_delta adj1 mulmx1 swap_delta mul_mx_diag /fb_X mul_mx_diag.
apply/matrixP; apply: ord2P; apply: ord2P; rewrite !mxE /= ?conjC0 ?conjC1 ?mul0r ?mul1r ?invr1 ?mulr1 //.
by rewrite (_ : 6%:R = 2%:R * 3%:R) ?invfM ?mulrA ?divff ?mul1r ?pnatr_eq0 // -natrM.
Qed.
Definition fb_backinv : 'M[AC]_2 := \matrix_(i, j) (if i == j then 0 else if i == 0%N :> nat then 3%:R else 1).
Lemma fb_inv : fb_back *m fb_backinv = 1%:M.
Proof.
apply/matrixP; apply: ord2P; apply: ord2P; rewrite !mxE big_ord_recl big_ord1 !mxE /= ?mul0r ?mulr0 ?add0r ?addr0 ?mulr1 //.
by rewrite mulVf ?pnatr_eq0.
Qed.
Lemma fb_invmx : fb_back \in unitmx /\ invmx fb_back = fb_backinv.
Proof.
have [U _] := mulmx1_unit fb_inv; split=> //.
by rewrite -[LHS]mulmx1 -fb_inv mulKmx.
Qed.
Definition fb_M : 'M[AC]_2 := diag_mx (\row_j (if j == 0%N :> nat then 1 else 9%:R)).
Lemma fb_prod : fb_B *m fb_backinv = fb_M.
Proof.
apply/matrixP; apply: ord2P; apply: ord2P; rewrite !mxE big_ord_recl big_ord1 !mxE /= ?mul0r ?mulr0 ?add0r ?addr0 ?mulr1 //.
by rewrite -natrM mulr1n.
Qed.
Definition fb_root : 'M[AC]_2 := diag_mx (\row_j (if j == 0%N :> nat then 1 else 3%:R)).
Lemma fb_sqrt : sqrtm_ok fb_np fb_M.
Proof.
rewrite /sqrtm_ok /= mulmx_diag; congr diag_mx; apply/rowP; apply: ord2P; rewrite !mxE /= ?mulr1 //.
by rewrite -natrM.
Qed.
Definition fb_o : op_fit AC 2 2 :=
  let U := take_cols (np_svd fb_np fb_X).1.1 ord_max in let s := take_cols (np_svd fb_np fb_X).1.2 ord_max in
  let V := take_cols (adj (np_svd fb_np fb_X).2) ord_max in
  let l := eig_pairs (np_eig fb_np fb_root).1 (np_eig fb_np fb_root).2 in
  OpFit U s V fb_root (pairs_eigs l) (pairs_vecs l) (compute_modes fb_cfg (np_norm fb_np fb_X) fb_Y U s V (pairs_vecs l)).
Lemma fb_operator : compute_operator fb_np fb_cfg fb_X fb_Y = (fb_cfg, Ok fb_o).
Proof.
apply: (@compute_operatorE _ fb_np 2 2 fb_cfg fb_X fb_Y fb_root fb_cfg) => //.
rewrite forward_backwardE; have [U1 U2] := fb_invmx.
change (np_rank fb_np (np_svd fb_np fb_X).1.2 2 2 (c_rank fb_cfg)) with (ord_max : 'I_(minn 2 2).+1).
change (c_fb fb_cfg) with true; change (c_tik fb_cfg) with (@None AC); cbv zeta.
by rewrite fb_lsY fb_lsX U1 U2 fb_prod.
Qed.
Theorem fb_wrong : exists np cfg (X Y B : 'M[AC]_2) o,
  [/\ compute_operator np cfg X Y = (cfg, Ok o) /\ c_fb cfg, Y = B *m X,
      svd_ok np X /\ svd_ok np Y,
      (sqrtm_ok np fb_M /\ forall Ah, ahat (c_rescale cfg) (of_Atilde o) = Ok Ah -> eig_ok np Ah) &
      forall j (v : 'cV[AC]_2), B *m v = of_eigs o 0 j *: v -> v = 0].
Proof.
exists fb_np, fb_cfg, fb_X, fb_Y, fb_B, fb_o; split=> //.
- split=> //; exact: fb_operator.
- split; [exact: fb_svdX | exact: fb_svdY].
- split; first exact: fb_sqrt.
  move=> Ah [<-]; split.
    rewrite /= mulmx1 mul1mx; congr diag_mx; by apply/rowP=> j; rewrite !mxE eqxx.
  move=> j; rewrite /= (bigD1 j) //= big1 ?addr0 ?mxE ?eqxx ?normr1 ?expr1n // => i Hi.
  by rewrite mxE (negbTE Hi) normr0 expr0n.
- move=> j v H.
  have E i : (fb_B *m v) i 0 = of_eigs fb_o 0 j * v i 0 by rewrite H mxE.
  have E0 := E ord0; have E1 := E (lift ord0 ord0).
  have Ej : of_eigs fb_o 0 j = if j == 0%N :> nat then 1 else 3%:R.
    by rewrite [LHS]mxE (nth_eig_pairs _ _ j) !mxE eqxx mulr1n.
  rewrite Ej in E0 E1; move: E0 E1; rewrite !mxE !big_ord_recl !big_ord0 !mxE /= ?mul0r ?add0r ?addr0 ?mul1r => E0 E1.
  rewrite -/(lift _ _) in E0 E1.
  have V0 : v ord0 0 = 0.
    apply/eqP; move: E1; rewrite E0; case: ifP=> _; rewrite ?mul1r ?mulrA -?natrM.
      move/eqP; rewrite -{2}[v ord0 0]mul1r -subr_eq0 -mulrBl mulf_eq0; case/orP=> //.
      by rewrite subr_eq0 (eqr_nat _ 3 1).
    by move/eqP; rewrite -subr_eq0 -mulrBl mulf_eq0 subr_eq0 eqr_nat.
  apply/colP; apply: ord2P; rewrite [RHS]mxE //.
  by rewrite E0 V0 mulr0.
Qed.

(** ** rescale_mode="auto" freezes the factors of the first fit *)
Definition au_cfg : dmd_cfg AC :=
  DmdCfg (OpCfg (Model_Utils.RInt (BinNums.Zneg BinNums.xH)) false false (RsAuto AC) SoNone None) 0 (OptBool false).
Theorem auto_not_fresh : exists np (cfg : dmd_cfg AC) (d : dataset AC) (S : 'M[AC]_(2, 3)),
  [/\ c_rescale (d_op cfg) = RsAuto AC, (exists f, (fit np cfg S).2 = Ok f) &
      (fit np (after_fits np cfg [:: d]) S).2 = Err ValueError].
Proof.
exists ex_np, au_cfg, (@OneSet AC 1 1 (const_mx 1)), ex_S; split=> //.
- eexists; rewrite /fit /fit_pair /=.
  rewrite /eigenquantities /= size_map size_enum_ord /=.
  by rewrite /amplitudes /= insubT //=.
- apply: auto_frozen_wrong_rank=> //.
  by rewrite /= size_map size_enum_ord.
Qed.
