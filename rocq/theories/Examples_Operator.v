(** * A concrete system that meets the hypotheses of the operator theorems

    x0 = (1,0), x1 = (0,1), x2 = (1,0), generated by the swap of the two
    coordinates.  The routines below are correct on the calls this fit makes. *)
From mathcomp Require Import all_ssreflect all_algebra all_field fingroup perm.
From Verif Require Import Py LinAlg Model_Operator Spec_Operator Proofs_OpCore Proofs_Operator Proofs_Operator2 Proofs_Recovery.
From Verif Require Model_Utils.
Set Implicit Arguments. Unset Strict Implicit. Unset Printing Implicit Defensive.
Import Order.TTheory GRing.Theory Num.Theory.
Local Open Scope ring_scope.

Definition c2 : algC := (sqrtC 2%:R)^-1.
Lemma c2_sq : c2 * c2 = 2%:R^-1.
Proof. by rewrite /c2 -invfM -expr2 sqrtCK. Qed.
Lemma c2_conj : c2^* = c2.
Proof. by rewrite geC0_conj // invr_ge0 sqrtC_ge0 ler0n. Qed.

Definition ex_power (x : algC) (q : rat) : algC := if denq q == 1 then x ^ numq q else 0.
Lemma ex_power_ok : forall (x : algC) (z : int), ex_power x z%:~R = x ^ z.
Proof. by move=> x z; rewrite /ex_power denq_int eqxx numq_int. Qed.

Local Notation AC := algCnumClosedField.
Definition ex_np : numpy AC := {|
  np_svd := fun n m X => (\matrix_(i, j) (i == j :> nat)%:R, const_mx 1, \matrix_(i, j) (i == j :> nat)%:R);
  np_rank := fun k _ _ _ _ => ord_max;
  np_eig := fun r A => (\row_j (-1) ^+ j, \matrix_(i, j) ((-1) ^+ (i * j) * c2));
  np_sqrtm := fun r M => M;
  np_norm := fun n m X => sqrtC (frob2 X);
  np_lstsq := fun n r M y => adj M *m y;
  np_solve := fun r P q => invmx P *m q;
  np_pinv := fun n r M => adj M;
  np_power := ex_power |}.

Definition swap2 : 'M[algC]_2 := \matrix_(i, j) (i != j)%:R.
Definition ex_S : 'M[algC]_(2, 3) := \matrix_(i, j) (odd i == odd j)%:R.
Definition ex_cfg (exact : bool) (opt : opt_arg) : dmd_cfg AC :=
  DmdCfg (OpCfg (Model_Utils.RInt (BinNums.Zneg BinNums.xH)) exact false (RsNone AC) SoNone None) 0 opt.

Lemma ex_power_spec : power_ok ex_np.
Proof. by move=> x z _; exact: ex_power_ok. Qed.

Ltac ords := repeat match goal with
  | i : 'I_2 |- _ => case: i => [[|[|i]] //= ?]
  end.
Lemma ord2P (P : 'I_2 -> Prop) : P ord0 -> P (lift ord0 ord0) -> forall i, P i.
Proof.
move=> H0 H1 i; case: (unliftP ord0 i)=> [j ->|->] //; by rewrite (ord1 j).
Qed.
Lemma ord3P (P : 'I_3 -> Prop) : P ord0 -> P (lift ord0 ord0) -> P (lift ord0 (lift ord0 ord0)) -> forall i, P i.
Proof.
by move=> H0 H1 H2 i; case: (unliftP ord0 i)=> [j ->|->] //; move: j; apply: ord2P.
Qed.

Lemma ex_linear : linear_data swap2 ex_S.
Proof.
move=> j j' E; apply/colP=> i; rewrite !mxE big_ord_recl big_ord1 !mxE E /=.
by move: i; apply: ord2P; rewrite /= ?mul0r ?mul1r ?add0r ?addr0 /=; case: odd.
Qed.

Lemma ex_X : col' ord_max ex_S = 1%:M.
Proof. by apply/matrixP; apply: ord2P; apply: ord2P; rewrite !mxE. Qed.
Lemma ex_Y : col' ord0 ex_S = swap2.
Proof. by apply/matrixP; apply: ord2P; apply: ord2P; rewrite !mxE. Qed.
Lemma ex_delta : (\matrix_(i < 2, j < 2) (i == j :> nat)%:R) = 1%:M :> 'M[algC]_2.
Proof. by apply/matrixP=> i j; rewrite !mxE. Qed.
Lemma ex_svd : svd_ok ex_np (1%:M : 'M[algC]_2).
Proof.
split=> /=; rewrite ?ex_delta; rewrite ?diag_const_mx ?mulmx1 ?mul1mx ?adj1 ?mulmx1 //.
- by move=> j; rewrite mxE ler01.
- by move=> i j _; rewrite !mxE.
Qed.

Definition ex_o (exact : bool) : op_fit AC 2 2 :=
  let X := col' ord_max ex_S in let Y := col' ord0 ex_S in
  let cfg := d_op (ex_cfg exact (OptBool false)) in
  let U := take_cols (np_svd ex_np X).1.1 ord_max in let s := take_cols (np_svd ex_np X).1.2 ord_max in
  let V := take_cols (adj (np_svd ex_np X).2) ord_max in
  let A := least_square_operator None (np_norm ex_np X) U s V Y in
  let l := eig_pairs (np_eig ex_np A).1 (np_eig ex_np A).2 in
  OpFit U s V A (pairs_eigs l) (pairs_vecs l) (compute_modes cfg (np_norm ex_np X) Y U s V (pairs_vecs l)).

Lemma ex_operator exact opt :
  compute_operator ex_np (d_op (ex_cfg exact opt)) (col' ord_max ex_S) (col' ord0 ex_S) = (d_op (ex_cfg exact opt), Ok (ex_o exact)).
Proof. by []. Qed.

Lemma take_max n k (M : 'M[AC]_(n, k)) : take_cols M ord_max = M.
Proof. by apply/matrixP=> i j; rewrite mxE; congr (M _ _); apply/val_inj. Qed.

Lemma ex_U exact : of_U (ex_o exact) = 1%:M.
Proof. by rewrite /= take_max ex_delta. Qed.
Lemma ex_V exact : of_V (ex_o exact) = 1%:M.
Proof. by rewrite /= take_max ex_delta adj1. Qed.
Lemma ex_s exact : of_s (ex_o exact) = const_mx 1.
Proof. by rewrite /= take_max. Qed.
Lemma recip1 r : recip (const_mx 1 : 'rV[AC]_r) = const_mx 1.
Proof. by apply/rowP=> j; rewrite !mxE invr1. Qed.
Lemma ex_Atilde exact : of_Atilde (ex_o exact) = swap2.
Proof.
by rewrite [LHS]/= ls_op /= !take_max ex_delta !adj1 mul1mx recip1 diag_const_mx !mulmx1 ex_Y.
Qed.
Definition ex_W : 'M[AC]_2 := \matrix_(i, j) ((-1) ^+ (i * j) * c2).
Definition ex_L : 'rV[AC]_2 := \row_j (-1) ^+ j.
Lemma ex_vecs exact : of_vecs (ex_o exact) = ex_W.
Proof. by apply/matrixP=> i j; rewrite [LHS]mxE (nth_eig_pairs _ _ j) !mxE. Qed.
Lemma ex_eigs exact : of_eigs (ex_o exact) = ex_L.
Proof. by apply/rowP=> j; rewrite [LHS]mxE (nth_eig_pairs _ _ j) !mxE. Qed.

Lemma ex_eig : swap2 *m ex_W = ex_W *m diag_mx ex_L.
Proof.
apply/matrixP=> i j; rewrite mul_mx_diag !mxE big_ord_recl big_ord1 !mxE.
by move: i j; apply: ord2P; apply: ord2P;
  rewrite /= ?mul0r ?add0r ?mul1r ?addr0 /= ?muln0 ?mul0n ?muln1 ?expr0 ?expr1 ?mul1r ?mulr1 // mulN1r mulrN1 ?opprK.
Qed.
Lemma half2 : 2%:R^-1 + 2%:R^-1 = 1 :> algC.
Proof. by rewrite -[X in X + _]mul1r -[X in _ + X]mul1r -splitr. Qed.
Lemma ex_WW : adj ex_W *m ex_W = 1%:M.
Proof.
apply/matrixP=> i j; rewrite !mxE big_ord_recl big_ord1 !adjE !mxE !rmorphM !c2_conj !rmorphX !rmorphN1.
rewrite -!mulrA ![c2 * (_ * c2)]mulrCA !c2_sq.
move: i j; apply: ord2P; apply: ord2P; rewrite /= ?mul0n ?muln1 ?expr0 ?expr1 ?mul1r ?mulN1r ?opprK ?half2 ?subrr //.
Qed.
Lemma ex_Wunit : ex_W \in unitmx.
Proof. by have [] := mulmx1_unit ex_WW. Qed.
Lemma ex_eig_ok : eig_ok ex_np swap2.
Proof.
split; first exact: ex_eig.
move=> j; have := congr1 (fun M : 'M_2 => M j j) ex_WW; rewrite !mxE eqxx => H1; rewrite -[1]H1.
by apply: eq_bigr=> i _; rewrite adjE normCKC.
Qed.
Lemma ex_nz exact j : of_eigs (ex_o exact) 0 j != 0.
Proof. by rewrite ex_eigs mxE expf_neq0 // oppr_eq0 oner_eq0. Qed.

Lemma ex_modes exact : of_modes (ex_o exact) = if exact then swap2 *m ex_W else ex_W.
Proof.
transitivity (if exact then col' ord0 ex_S *m of_V (ex_o exact) *m diag_mx (recip (of_s (ex_o exact))) *m of_vecs (ex_o exact)
              else of_U (ex_o exact) *m of_vecs (ex_o exact)).
  by case: exact; rewrite [LHS]/=; [rewrite modes_exact | rewrite modes_proj].
by rewrite ex_V ex_s ex_U ex_vecs recip1 diag_const_mx !mulmx1 mul1mx ex_Y.
Qed.
Lemma swap_unitary : adj swap2 *m swap2 = 1%:M.
Proof.
apply/matrixP=> i j; rewrite !mxE big_ord_recl big_ord1 !adjE !mxE !rmorph_nat -!natrM -!natrD.
by move: i j; apply: ord2P; apply: ord2P.
Qed.
Lemma ex_modes_orth exact : adj (of_modes (ex_o exact)) *m of_modes (ex_o exact) = 1%:M.
Proof.
rewrite ex_modes; case: exact; last exact: ex_WW.
by rewrite adjM -mulmxA (mulmxA (adj swap2)) swap_unitary mul1mx ex_WW.
Qed.

Lemma ex_pinv exact : pinv_ok ex_np (of_modes (ex_o exact)).
Proof.
have O := ex_modes_orth exact; split=> /=.
- by rewrite -mulmxA O mulmx1.
- by rewrite O mul1mx.
- by rewrite adjM adjK.
- by rewrite adjM adjK.
Qed.
Lemma ex_lstsq exact y : lstsq_ok ex_np (of_modes (ex_o exact)) y.
Proof. by rewrite /lstsq_ok /is_lstsq ex_modes_orth mul1mx. Qed.

Lemma diag2_mul (d e : 'rV[AC]_2) : diag_mx d *m diag_mx e = diag_mx (\row_j (d 0 j * e 0 j)).
Proof. exact: mulmx_diag. Qed.
(** the normal matrix of the optimal amplitudes *)
Lemma ex_P exact : opt_P (of_modes (ex_o exact)) (of_eigs (ex_o exact)) 3 = 3%:R%:M.
Proof.
rewrite /opt_P ex_modes_orth ex_eigs; apply/matrixP=> i j; rewrite !mxE.
case: (eqVneq i j)=> [<-|]; last by rewrite mul0r.
have N k : (((-1) ^+ i) ^+ k)^* * ((-1) ^+ i) ^+ k = 1 :> algC.
  by rewrite -exprM rmorphX rmorphN1 -exprMn mulrNN mulr1 expr1n.
rewrite mul1r rmorph_sum (eq_bigr (fun _ => 1)); first by rewrite sumr_const card_ord.
by move=> k _; rewrite adjE !mxE rmorphM /= conjCK N.
Qed.
Lemma ex_Punit exact : opt_P (of_modes (ex_o exact)) (of_eigs (ex_o exact)) 3 \in unitmx.
Proof. by rewrite ex_P unitmxE det_scalar unitrX // unitfE pnatr_eq0. Qed.

(** the fit with the amplitudes of any of the three snapshots *)
Definition ex_f (exact : bool) (k : 'I_3) : dmd_fit AC 2 2 :=
  @DmdFit AC 2 2 (ex_o exact) (np_lstsq ex_np (of_modes (ex_o exact)) (col k ex_S)).
Lemma ex_fit exact opt (k : 'I_3) : opt <> OptBool true ->
  col_index 3 (match opt with OptInt z => z | _ => 0 end) = Some k ->
  fit ex_np (ex_cfg exact opt) ex_S = (ex_cfg exact opt, Ok (ex_f exact k)).
Proof.
move=> Ho Hk.
have -> : fit ex_np (ex_cfg exact opt) ex_S = (ex_cfg exact opt,
  let! b := amplitudes ex_np exact opt ex_S (col' ord_max ex_S) (ex_o exact) in Ok (@DmdFit AC 2 2 (ex_o exact) b)) by [].
by congr pair; rewrite /amplitudes; case: opt Ho Hk=> [[]|z] // _ Hk; rewrite Hk.
Qed.

Lemma ex_recoverable_gen exact opt f : fit ex_np (ex_cfg exact opt) ex_S = (ex_cfg exact opt, Ok f) ->
  df_op f = ex_o exact -> recoverable ex_np (ex_cfg exact opt) (ex_cfg exact opt) swap2 ex_S f.
Proof.
move=> Hf E; split; last first.
  exists (col ord0 1%:M); rewrite ex_X mul1mx; apply/colP=> i; rewrite !mxE.
  by move: i; apply: ord2P.
split=> //.
- exact: ex_linear.
- rewrite ex_X; exact: ex_svd.
- rewrite E ex_X; split; first by rewrite ex_U ex_V ex_s diag_const_mx adj1 !mulmx1.
  by move=> j; rewrite ex_s mxE oner_neq0.
- rewrite E ex_Atilde => Ah [<-]; exact: ex_eig_ok.
- by rewrite E ex_vecs ex_Wunit.
- by rewrite E => _ j; exact: ex_nz.
Qed.
Lemma ex_recoverable exact opt (k : 'I_3) : opt <> OptBool true ->
  col_index 3 (match opt with OptInt z => z | _ => 0 end) = Some k ->
  recoverable ex_np (ex_cfg exact opt) (ex_cfg exact opt) swap2 ex_S (ex_f exact k).
Proof. by move=> H1 H2; apply: ex_recoverable_gen=> //; exact: ex_fit. Qed.

(** ** opt=True *)
Definition ex_q (exact : bool) : 'cV[AC]_(of_r (ex_o exact)) :=
  if exact then opt_q_exact (of_modes (ex_o exact)) (of_eigs (ex_o exact)) ex_S
  else let: (U, s, Vh) := np_svd ex_np (col' ord_max ex_S) in
       let V := \matrix_(i, j) (if insub (val j) is Some j' then (adj Vh) i j' else 0) in
       let s' := \row_j (if insub (val j) is Some j' then s 0 j' else 0) in
       opt_q_proj (of_eigs (ex_o exact)) (of_vecs (ex_o exact)) V s' (col' ord_max ex_S).
Definition ex_fopt (exact : bool) : dmd_fit AC 2 2 :=
  @DmdFit AC 2 2 (ex_o exact) (np_solve ex_np (opt_P (of_modes (ex_o exact)) (of_eigs (ex_o exact)) 3) (ex_q exact)).
Lemma ex_fit_opt exact : fit ex_np (ex_cfg exact (OptBool true)) ex_S = (ex_cfg exact (OptBool true), Ok (ex_fopt exact)).
Proof.
have -> : fit ex_np (ex_cfg exact (OptBool true)) ex_S = (ex_cfg exact (OptBool true),
  let! b := amplitudes ex_np exact (OptBool true) ex_S (col' ord_max ex_S) (ex_o exact) in Ok (@DmdFit AC 2 2 (ex_o exact) b)) by [].
by congr pair; rewrite /amplitudes ex_Punit.
Qed.
Lemma ex_recoverable_opt exact :
  recoverable ex_np (ex_cfg exact (OptBool true)) (ex_cfg exact (OptBool true)) swap2 ex_S (ex_fopt exact).
Proof. by apply: ex_recoverable_gen=> //; exact: ex_fit_opt. Qed.

Lemma ex_solve r (P : 'M[AC]_r) q : P \in unitmx -> solve_ok ex_np P q.
Proof. by move=> H; rewrite /solve_ok /= mulKVmx. Qed.

(** the optimal amplitudes of the projected modes are two thirds of the right ones *)
Lemma ex_opt_biased : df_b (ex_fopt false) = (2%:R / 3%:R) *: np_lstsq ex_np (of_modes (ex_o false)) (col ord0 ex_S).
Proof.
have E : ex_q false = 2%:R *: (const_mx c2 : 'cV[AC]_2).
  transitivity (opt_q_proj (of_eigs (ex_o false)) (of_vecs (ex_o false)) (1%:M : 'M_2) (const_mx 1 : 'rV_2) (col' ord_max ex_S)).
    rewrite /ex_q; congr opt_q_proj.
      by apply/matrixP; apply: ord2P; apply: ord2P; rewrite !mxE insubT //= adjE !mxE ?conjC1 ?conjC0.
    by apply/matrixP=> i; rewrite (ord1 i); apply: ord2P; rewrite !mxE insubT //= mxE.
  rewrite /opt_q_proj diag_const_mx /conj_mx map_scalar_mx conjC1 !mulmx1 ex_eigs ex_vecs.
  apply/colP=> i; rewrite !mxE big_ord_recl big_ord1 !mxE; move: i; apply: ord2P;
    rewrite /= ?expr0 ?expr1 ?mul1r ?mulrA ?mulrNN ?mulr1 ?mul1r -mulr2n -mulr_natl rmorphM c2_conj conjC_nat //.
have W0 : np_lstsq ex_np (of_modes (ex_o false)) (col ord0 ex_S) = const_mx c2.
  rewrite ex_modes; apply/colP=> i; rewrite /np_lstsq [LHS]mxE big_ord_recl big_ord1 !adjE !mxE.
  by move: i; apply: ord2P; rewrite /= ?expr0 ?mul1r ?mulr1 ?mulr0 ?addr0 c2_conj.
have -> : df_b (ex_fopt false) = invmx (opt_P (of_modes (ex_o false)) (of_eigs (ex_o false)) 3) *m ex_q false by [].
by rewrite W0 ex_P E invmx_scalar mul_scalar_mx scalerA mulrC.
Qed.
