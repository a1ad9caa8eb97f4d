(** * C50: OptDMD *)
From mathcomp Require Import all_ssreflect all_fingroup all_algebra all_field.
From Verif Require Import Py LinAlg Model_Operator Spec_Operator Proofs_OpCore Proofs_Operator Proofs_CDMD Ideal Proofs_EckartYoung Model_OptDMD.
From Verif Require Model_Utils.
Set Implicit Arguments. Unset Strict Implicit. Unset Printing Implicit Defensive.
Import Order.TTheory GRing.Theory Num.Theory.
Local Open Scope ring_scope.

Section Main.
Variable C : numClosedFieldType.
Variables (np : numpy C) (eig2 : forall r, 'M[C]_r -> 'rV[C]_r * 'M[C]_r * 'M[C]_r) (tol : C).

(** no singular value lies strictly between zero and the threshold *)
Definition resolved n m (X : 'M[C]_(n, m)) : Prop := forall j, (np_svd np X).1.2 0 j = 0 \/ tol < (np_svd np X).1.2 0 j.
(** eig(A, left=True, right=True): right and left eigenvectors, none of them zero *)
Definition eig2_ok r (A : 'M[C]_r) : Prop :=
  let: (w, vl, vr) := eig2 A in
  [/\ A *m vr = vr *m diag_mx w, adj vl *m A = diag_mx w *m adj vl & forall j, col j vr != 0].
(** [A] is a best map of rank at most [r] for the data *)
Definition best_map n m r (X Y : 'M[C]_(n, m)) (A : 'M[C]_n) : Prop :=
  (\rank A <= r)%N /\ forall B : 'M[C]_n, (\rank B <= r)%N -> frob2 (Y - A *m X) <= frob2 (Y - B *m X).

(** ** pinv_diag *)
Lemma np_gt_real (x t : C) : x \is Num.real -> t \is Num.real -> np_gt x t = (t < x).
Proof.
move=> Hx Ht; have -> : np_gt x t = (t < x) || ((x == t) && (0 < 0 :> C)).
  by rewrite /np_gt !(Creal_ReP _ _) // (Creal_ImP _ Hx) (Creal_ImP _ Ht).
by rewrite ltxx andbF orbF.
Qed.
Lemma Re_recip (x : C) : 'Re x^-1 = 'Re x * (`|x| ^+ 2)^-1.
Proof.
by rewrite invC_norm ReMl ?Re_conj 1?mulrC // rpredV rpredX // normr_real.
Qed.
Lemma pinv_diagE k (x : 'rV[C]_k) : 0 <= tol -> (forall j, 0 <= x 0 j) ->
  (forall j, x 0 j = 0 \/ tol < x 0 j) -> pinv_diag tol x = recip x.
Proof.
move=> Ht Hx Hr; apply/rowP=> j; rewrite !mxE np_gt_real ?ger0_real //.
case: (Hr j)=> [->|H]; first by rewrite invr0 le_gtF.
by rewrite H; apply/Creal_ReP; rewrite rpredV ger0_real.
Qed.
Lemma recip_pinv n m k (X : 'M[C]_(n, m)) (U : 'M[C]_(n, k)) s (Vh : 'M[C]_(k, m)) : is_svd X U s Vh ->
  is_pinv X (adj Vh *m diag_mx (recip s) *m adj U).
Proof.
case=> E HU HV Hs _.
have Hc (d : 'rV[C]_k) : (forall j, 0 <= d 0 j) -> adj (diag_mx d) = diag_mx d.
  move=> Hd; rewrite adj_diag; congr diag_mx; apply/rowP=> j; rewrite mxE conj_Creal ?ger0_real //.
pose d : 'rV[C]_k := \row_j (s 0 j * (s 0 j)^-1).
have E1 : diag_mx s *m diag_mx (recip s) = diag_mx d by rewrite mulmx_diag; congr diag_mx; apply/rowP=> j; rewrite !mxE.
have E2 : diag_mx (recip s) *m diag_mx s = diag_mx d by rewrite mulmx_diag; congr diag_mx; apply/rowP=> j; rewrite !mxE mulrC.
have Hd : adj (diag_mx d) = diag_mx d by apply: Hc=> j; rewrite mxE mulr_ge0 ?invr_ge0.
have D1 : diag_mx d *m diag_mx s = diag_mx s.
  rewrite mulmx_diag; congr diag_mx; apply/rowP=> j; rewrite !mxE.
  by have [->|N] := eqVneq (s 0 j) 0; rewrite ?mulr0 // divff // mul1r.
have D2 : diag_mx d *m diag_mx (recip s) = diag_mx (recip s).
  rewrite mulmx_diag; congr diag_mx; apply/rowP=> j; rewrite !mxE.
  by have [->|N] := eqVneq (s 0 j) 0; rewrite ?invr0 ?mulr0 // divff // mul1r.
set P := _ *m adj U.
have XP : X *m P = U *m diag_mx d *m adj U.
  by rewrite E /P -!mulmxA (mulmxA Vh) HV mul1mx (mulmxA (diag_mx s)) E1 !mulmxA.
have PX : P *m X = adj Vh *m diag_mx d *m Vh.
  by rewrite E /P -!mulmxA (mulmxA (adj U)) HU mul1mx (mulmxA (diag_mx (recip s))) E2 !mulmxA.
split.
- by rewrite XP {1}E -!mulmxA (mulmxA (adj U)) HU mul1mx (mulmxA (diag_mx d)) D1 mulmxA -E.
- by rewrite PX /P -!mulmxA (mulmxA Vh) HV mul1mx (mulmxA (diag_mx d)) D2.
- by rewrite XP !adjM adjK Hd mulmxA.
- by rewrite PX !adjM adjK Hd mulmxA.
Qed.

(** ** The operator *)
Section Operator.
Variables (n m : nat) (fact : factor) (rk : Model_Utils.rank_arg) (X Y : 'M[C]_(n, m)).
Let o := opt_operator np eig2 tol fact rk X Y.
Hypothesis Ht : 0 <= tol.
Hypothesis HX : svd_ok np X.
Hypothesis HR : resolved X.

Lemma opt_facts P : is_pinv X P -> svd_ok np (Y *m (P *m X)) ->
  exists r : 'I_(minn n m).+1, 
  [/\ oo_r o = r, adj (oo_P o) *m oo_P o = 1%:M,
      oo_P o *m adj (oo_Q o) = oo_P o *m adj (oo_P o) *m Y *m P,
      oo_A o = adj (oo_P o) *m (oo_P o *m adj (oo_Q o)) *m oo_P o &
      let Z := Y *m (P *m X) in forall B, (\rank B <= r)%N ->
        frob2 (Z - oo_P o *m (adj (oo_P o) *m Z)) <= frob2 (Z - B)].
Proof.
move=> HP; rewrite /o /opt_operator.
have HS := HX; rewrite /svd_ok in HS; move: HR; rewrite /resolved.
case E: (np_svd np X) HS=> [[Ux Sx] Vxh] /= HS HR'.
have EP : P = adj Vxh *m diag_mx (recip Sx) *m adj Ux := pinv_unique HP (recip_pinv HS).
have Es : pinv_diag tol Sx = recip Sx by apply: pinv_diagE=> //; case: HS.
have EZ : Y *m adj Vxh *m diag_mx Sx *m diag_mx (pinv_diag tol Sx) *m Vxh = Y *m (P *m X).
  case: (HS)=> EX HU HV Hs _; rewrite EP {1}EX Es -!mulmxA (mulmxA (adj Ux)) HU mul1mx.
  congr (_ *m (_ *m _)); rewrite !mulmxA; congr (_ *m _).
  by rewrite !mulmx_diag; congr diag_mx; apply/rowP=> j; rewrite !mxE mulrC.
rewrite EZ => HZ; rewrite compute_svdE /=; set Z := Y *m (P *m X) in HZ *.
set r := np_rank _ _ _ _ _; exists r; rewrite take_colsE.
have UU : adj ((np_svd np Z).1.1 *m sel_mx C (minn n m) r) *m ((np_svd np Z).1.1 *m sel_mx C (minn n m) r) = 1%:M.
  exact: (trunc_UU (leq_ord _) HZ).
set U := (np_svd np Z).1.1 *m _ in UU *.
split=> //.
- by rewrite adjK Es EP !mulmxA.
- by rewrite adjK [in RHS]mulmxA UU mul1mx.
- by move=> B HB; apply: (eckart_young HZ (leq_ord _) HB).
Qed.

Lemma opt_optimal P : is_pinv X P -> svd_ok np (Y *m (P *m X)) ->
  best_map (oo_r o) X Y (oo_P o *m adj (oo_Q o)).
Proof.
move=> HP HZ; have [r [Er UU EA _ HB]] := opt_facts HP HZ; split.
  by apply: leq_trans (mxrankM_maxl _ _) _; exact: rank_leq_col.
move=> B Hrk; rewrite [X in (_ <= X)%N]Er in Hrk; case: HP=> P1 P2 P3 P4.
have PP : P *m X *m (P *m X) = P *m X by rewrite mulmxA P2.
have split_ (M : 'M[C]_n) : frob2 (Y - M *m X) = frob2 (Y *m (P *m X) - M *m X) + frob2 (Y - Y *m (P *m X)).
  have -> : Y - M *m X = (Y *m (P *m X) - M *m X) + (Y - Y *m (P *m X)) by rewrite [RHS]addrC addrA subrK.
  apply: frob2D_orth; have -> : Y *m (P *m X) - M *m X = (Y - M *m X) *m (P *m X).
    by rewrite mulmxBl; congr (_ - _); rewrite -mulmxA (mulmxA X) P1.
  have -> : Y - Y *m (P *m X) = Y *m (1%:M - P *m X) by rewrite mulmxBr mulmx1.
  rewrite adjM adjB adj1 P4 -mulmxA (mulmxA (P *m X)) mulmxBr mulmx1 PP subrr mul0mx mulmx0 //.
rewrite !split_ ler_add2r; apply: le_trans (HB (B *m X) _); last exact: leq_trans (mxrankM_maxl _ _) Hrk.
by rewrite EA -!mulmxA.
Qed.
End Operator.

(** With factorization='svd', predict is one linear map, of rank at most the chosen one, and no such map fits the
    data better (the data after the total-least-squares projection, which for tlsq_rank=0 does nothing). *)
Theorem C50_svd n m p (d : opt_dmd C n) (X Y : 'M[C]_(n, m)) : od_fact d = FSvd -> 0 <= tol ->
  let XY := compute_tlsq np X Y (od_tlsq d) in let d' := opt_fit_xy np eig2 tol d X Y in
  svd_ok np XY.1 -> resolved XY.1 -> forall P, is_pinv XY.1 P -> svd_ok np (XY.2 *m (P *m XY.1)) ->
  exists A : 'M[C]_n, exists r, exists M : 'M[C]_(n, r),
   [/\ forall x : 'M[C]_(n, p), opt_predict d' x = Ok (A *m x), best_map r XY.1 XY.2 A,
       opt_modes d' = Some (existT _ r M), adj M *m M = 1%:M & A = M *m (adj M *m (XY.2 *m P))].
Proof.
move=> Ef Ht XY d' HX HR P HP HZ.
have HB := opt_optimal FSvd (od_rank d) Ht HX HR HP HZ.
have [r [_ UU EA _ _]] := opt_facts FSvd (od_rank d) Ht HX HR HP HZ.
set o := opt_operator np eig2 tol FSvd (od_rank d) XY.1 XY.2 in HB UU EA.
exists (oo_P o *m adj (oo_Q o)), (oo_r o), (oo_P o); split=> //.
- by move=> x; rewrite /d' /opt_fit_xy /opt_predict /= Ef.
- by rewrite /d' /opt_fit_xy /opt_modes /= Ef.
- by rewrite EA !mulmxA.
Qed.

(** With 'evd': the modes and the operator's eigenvectors are right and left eigenvectors of the same optimal map;
    a mode vanishes exactly when its eigenvalue is not above the threshold in NumPy's order. *)
Theorem C50_evd n m (d : opt_dmd C n) (X Y : 'M[C]_(n, m)) : od_fact d = FEvd -> 0 < tol ->
  let XY := compute_tlsq np X Y (od_tlsq d) in let d' := opt_fit_xy np eig2 tol d X Y in
  svd_ok np XY.1 -> resolved XY.1 -> forall P, is_pinv XY.1 P -> svd_ok np (XY.2 *m (P *m XY.1)) ->
  (forall o, od_op d' = Some o -> eig2_ok (oo_A o)) ->
  exists A : 'M[C]_n, exists r, exists (e : 'rV[C]_r) (L R : 'M[C]_(n, r)) o,
   [/\ best_map r XY.1 XY.2 A, opt_eigs d' = Ok (existT _ r e) /\ opt_modes d' = Some (existT _ r R),
       od_op d' = Some o /\ existT (fun r => option ('rV[C]_r * 'M[C]_(n, r) * 'M[C]_(n, r)))%type _ (oo_eig o) = existT _ r (Some (e, L, R)),
       A *m R = R *m diag_mx e /\ adj A *m L = L *m diag_mx (map_mx conjC e) &
       forall j, (col j R == 0) = ~~ np_gt (e 0 j) tol].
Proof.
move=> Ef Ht XY d' HX HR P HP HZ HE.
have HB := opt_optimal FEvd (od_rank d) (ltW Ht) HX HR HP HZ.
have [r [_ UU EA EAt _]] := opt_facts FEvd (od_rank d) (ltW Ht) HX HR HP HZ.
pose o := opt_operator np eig2 tol FEvd (od_rank d) XY.1 XY.2; rewrite -/o in HB UU EA EAt.
have Ed : od_op d' = Some o by rewrite /d' /opt_fit_xy /= Ef.
have {}HE := HE _ Ed; rewrite /eig2_ok in HE.
have Eo : oo_eig o = Some (opt_eig eig2 tol (oo_P o) (oo_Q o) (oo_A o)).
  by rewrite /o /opt_operator; case: (np_svd np XY.1)=> [[]].
have EQ : oo_A o = adj (oo_Q o) *m oo_P o by rewrite EAt !mulmxA UU mul1mx.
move: Eo; rewrite /opt_eig; case Ee: (eig2 (oo_A o)) HE=> [[w vl] vr] [H1 H2 H3] /= Eo.
exists (oo_P o *m adj (oo_Q o)), (oo_r o), w; do 2 eexists; exists o; split=> //.
- split; rewrite /d' /opt_fit_xy /opt_eigs /opt_modes /= Ef -/o Eo //.
- by split=> //; rewrite Eo; reflexivity.
- split.
    rewrite -(mulmxA (oo_P o) (adj _)) -!(mulmxA (oo_P o)) (mulmxA (adj _)) -EQ -(mulmxA (oo_A o)) -!mulmxA (mulmxA (oo_A o) vr) H1.
    rewrite -(mulmxA vr); do 3 congr (_ *m _); rewrite !mulmx_diag; congr diag_mx.
    by apply/rowP=> j; rewrite !mxE mulrC.
  have H2' : adj (oo_A o) *m vl = vl *m diag_mx (map_mx conjC w).
    by apply: (@adj_inj C); rewrite !adjM !adjK H2 adj_diag; congr (diag_mx _ *m _); apply/rowP=> j; rewrite !mxE conjCK.
  set g := pinv_diag tol (\row_j _); move: g=> g.
  rewrite adjM adjK -!mulmxA (mulmxA (adj _) (oo_Q o)).
  have -> : adj (oo_P o) *m oo_Q o = adj (oo_A o) by rewrite EQ adjM adjK.
  rewrite (mulmxA (adj _) vl) H2' -!mulmxA !mulmx_diag; do 2 congr (_ *m _); congr diag_mx.
  by apply/rowP=> j; rewrite !mxE mulrC -!mulrA.
- move=> j.
  have -> : col j (oo_P o *m oo_A o *m vr *m diag_mx (pinv_diag tol w)) = (w 0 j * pinv_diag tol w 0 j) *: (oo_P o *m col j vr).
    rewrite -(mulmxA (oo_P o)) H1 -!mulmxA mulmx_diag; apply/colP=> i; rewrite !mxE mulr_sumr; apply: eq_bigr=> l _.
    rewrite mul_mx_diag !mxE mulrA mulrC; congr (_ * (_ * _)).
  rewrite scaler_eq0 (_ : (oo_P o *m col j vr == 0) = false) ?orbF; last first.
    apply/negbTE; apply: contra (H3 j)=> /eqP E0; apply/eqP.
    by rewrite -[col j vr]mul1mx -UU -mulmxA E0 mulmx0.
  rewrite mulf_eq0 mxE; case Eg: (np_gt _ _); last by rewrite eqxx orbT.
  have Hre : 0 < 'Re (w 0 j).
    have T : 'Re tol = tol by apply/Creal_ReP; rewrite gtr0_real.
    move: Eg; rewrite /np_gt T => /orP[|/andP[/eqP -> _]] //; exact: lt_trans.
  have Hw : w 0 j != 0 by apply: contraTneq Hre=> ->; rewrite raddf0 ltxx.
  rewrite (negbTE Hw) /=; apply/negbTE.
  rewrite Re_recip mulf_neq0 ?gt_eqF //; by rewrite invr_gt0 exprn_gt0 // normr_gt0.
Qed.
End Main.

(** Data made by a linear map, with a rank not below that of the images: predict gives the images back. *)
Theorem C50_svd_exact (C : numClosedFieldType) (np : numpy C) eig2 tol n m (d : opt_dmd C n) (X : 'M[C]_(n, m)) (B : 'M[C]_n) :
  od_fact d = FSvd -> od_tlsq d = 0 -> 0 <= tol -> svd_ok np X -> resolved np tol X ->
  let Y := B *m X in svd_ok np Y -> (\rank Y <= np_rank np (np_svd np Y).1.2 n m (od_rank d))%N ->
  opt_predict (opt_fit_xy np eig2 tol d X Y) X = Ok Y.
Proof.
move=> Ef Et Ht HX HR Y HY Hr.
have [U [s [Vh HS]]] : exists U s Vh, @is_svd C n m (minn n m) X U s Vh by exists (np_svd np X).1.1, (np_svd np X).1.2, (np_svd np X).2.
have HP := recip_pinv HS; set P := _ *m adj U in HP.
have EXY : compute_tlsq np X Y (od_tlsq d) = (X, Y) by rewrite /compute_tlsq Et eqxx.
have EZ : Y *m (P *m X) = Y by case: HP=> P1 _ _ _; rewrite /Y -mulmxA (mulmxA X) P1.
clearbody Y P.
have HZ : svd_ok np (Y *m (P *m X)) by rewrite EZ.
have HB := opt_optimal eig2 FSvd (od_rank d) Ht HX HR HP HZ.
set o := opt_operator np eig2 tol FSvd (od_rank d) X Y in HB.
have Er : oo_r o = np_rank np (np_svd np Y).1.2 n m (od_rank d).
  have EZ' : Y *m adj (np_svd np X).2 *m diag_mx (np_svd np X).1.2 *m diag_mx (pinv_diag tol (np_svd np X).1.2) *m (np_svd np X).2 = Y.
    rewrite -[RHS]EZ -!mulmxA; congr (_ *m _).
    have -> : P = adj (np_svd np X).2 *m diag_mx (recip (np_svd np X).1.2) *m adj (np_svd np X).1.1 by apply: pinv_unique HP (recip_pinv HX).
    case: (HX)=> EX HU HV Hs _; rewrite [Z in _ = _ *m Z]EX -!mulmxA (mulmxA (adj (np_svd np X).1.1)) HU mul1mx; congr (_ *m _).
    rewrite pinv_diagE // !mulmxA; congr (_ *m _); rewrite !mulmx_diag; congr diag_mx; apply/rowP=> j; rewrite !mxE mulrC //.
  rewrite /o /opt_operator; move: EZ'; case E: (np_svd np X)=> [[Ux Sx] Vxh] /= ->; rewrite compute_svdE /=.
  by [].
case: HB=> _ HB; have {}HB := HB (Y *m P) _.
have E0 : Y - Y *m P *m X = 0 by rewrite -mulmxA EZ subrr.
have F0 : frob2 (0 : 'M[C]_(n, m)) = 0 by apply/eqP; rewrite frob2_eq0.
rewrite E0 F0 in HB.
have HB0 : frob2 (Y - oo_P o *m adj (oo_Q o) *m X) <= 0.
  by apply: HB; apply: leq_trans (mxrankM_maxl _ _) _; rewrite [X in (_ <= X)%N]Er.
have : frob2 (Y - oo_P o *m adj (oo_Q o) *m X) = 0 by apply/le_anti; rewrite HB0 frob2_ge0.
move/eqP; rewrite frob2_eq0 subr_eq0 => /eqP E1.
rewrite /opt_predict /opt_fit_xy /= Ef EXY /= -/o; congr Ok; exact: esym.
Qed.

(** ** Behaviour that does not depend on the numbers *)
(** predict with factorization='evd' fails on every input, fitted or not; before fit so does 'svd';
    with any other string the operator is computed and predict then fails. *)
Theorem C50_predict_errors (C : numClosedFieldType) (np : numpy C) eig2 tol n m p (d : opt_dmd C n) (X Y : 'M[C]_(n, m)) (x : 'M[C]_(n, p)) :
  [/\ od_fact d = FEvd -> opt_predict d x = Err AttributeError /\ opt_predict (opt_fit_xy np eig2 tol d X Y) x = Err AttributeError,
      forall rk t, opt_predict (opt_init C n FSvd rk t) x = Err AttributeError &
      od_fact d = FOther -> exists o, od_op (opt_fit_xy np eig2 tol d X Y) = Some o /\ opt_predict (opt_fit_xy np eig2 tol d X Y) x = Err UnboundLocalError].
Proof.
split; first by move=> Ef; rewrite /opt_predict /= Ef.
- by [].
- by move=> Ef; eexists; split; first reflexivity; rewrite /opt_predict /= Ef.
Qed.
(** the inherited accessors are refused at every moment of the life of the object *)
Theorem C50_refused (C : numClosedFieldType) n (d : opt_dmd C n) b :
  [/\ opt_fitted d = Err NotImplementedError, opt_dynamics d = Err NotImplementedError,
      opt_bitmask d = Err NotImplementedError & opt_set_bitmask d b = Err NotImplementedError].
Proof. by []. Qed.

(** What a fit leaves behind depends only on the constructor's arguments and on the data *)
Theorem C50_refit (C : numClosedFieldType) (np : numpy C) eig2 tol n m (d : opt_dmd C n) (X Y : 'M[C]_(n, m)) : od_fact d <> FOther ->
  opt_fit_xy np eig2 tol d X Y = opt_fit_xy np eig2 tol (opt_init C n (od_fact d) (od_rank d) (od_tlsq d)) X Y.
Proof.
rewrite /opt_fit_xy /=; case: (od_fact d)=> // _; congr OptDmd.
by rewrite /opt_operator; case: (np_svd np _)=> [[? ?] ?] /=; case: (opt_eig _ _ _ _ _)=> [[]].
Qed.
(** fit(X) is fit(X[:, :-1], X[:, 1:]) *)
Theorem C50_one_argument (C : numClosedFieldType) (np : numpy C) eig2 tol n m (d : opt_dmd C n) (S : 'M[C]_(n, m.+1)) (X Y : 'M[C]_(n, m)) :
  (forall i (j : 'I_m), X i j = S i (widen_ord (leqnSn m) j) /\ Y i j = S i (inord j.+1)) ->
  opt_fit np eig2 tol d S = opt_fit_xy np eig2 tol d X Y.
Proof.
move=> H; rewrite /opt_fit; congr (opt_fit_xy _ _ _ _); apply/matrixP=> i j; rewrite mxE; have [H1 H2] := H i j.
  by rewrite H1; congr (S _ _); apply: val_inj; rewrite /= /bump leqNgt ltn_ord.
by rewrite H2; congr (S _ _); apply: val_inj; rewrite /= /bump leq0n inordK // ltnS ltn_ord.
Qed.

(** ** The hypotheses can be met *)
Section Met.
Variable C : numClosedFieldType.
(** some positive threshold resolves the data, and so does every smaller one *)
Lemma resolved_exists (np : numpy C) n m (X : 'M[C]_(n, m)) : svd_ok np X ->
  exists t : C, 0 < t /\ forall tol, tol <= t -> resolved np tol X.
Proof.
case=> _ _ _ Hs _; move: Hs; rewrite /resolved; move: (np_svd np X).1.2 => s Hs.
suff [t [Ht H]] : exists t : C, 0 < t /\ forall j, s 0 j = 0 \/ t < s 0 j.
  exists t; split=> // tol Hl j; case: (H j)=> [->|Hj]; [by left|by right; apply: le_lt_trans Hl Hj].
have : forall l : seq 'I_(minn n m), exists t : C, 0 < t /\ forall j, j \in l -> s 0 j = 0 \/ t < s 0 j.
  elim=> [|j l [t [Ht IH]]]; first by exists 1; split=> //; exact: ltr01.
  have [E|N] := eqVneq (s 0 j) 0.
    by exists t; split=> // i; rewrite inE => /orP[/eqP ->|/IH //]; left.
  have Hj : 0 < s 0 j by rewrite lt_neqAle eq_sym N Hs.
  have P1 : 0 < 1 + t^-1 + (s 0 j)^-1 by rewrite addr_gt0 ?invr_gt0 // addr_gt0 ?invr_gt0 ?ltr01.
  have up (u : C) : 0 < u -> u^-1 < 1 + t^-1 + (s 0 j)^-1 -> (1 + t^-1 + (s 0 j)^-1)^-1 < u.
    by move=> Hu Hl; rewrite -[X in _ < X]invrK ltf_pinv ?posrE ?invr_gt0.
  exists (1 + t^-1 + (s 0 j)^-1)^-1; rewrite invr_gt0; split=> // i; rewrite inE => /orP[/eqP ->|/IH [->|H]]; [right|by left|right].
    by apply: up=> //; rewrite ltr_addr addr_gt0 ?ltr01 ?invr_gt0.
  by apply: lt_trans H; apply: up=> //; rewrite addrAC ltr_addr addr_gt0 ?ltr01 ?invr_gt0.
move/(_ (enum 'I_(minn n m)))=> [t [Ht H]]; exists t; split=> // j; apply: H; exact: mem_enum.
Qed.
(** a left and a right eigenvector for each eigenvalue of any square matrix *)
Definition ideal_eig2 r (A : 'M[C]_r) : 'rV[C]_r * 'M[C]_r * 'M[C]_r :=
  let: (w, vr) := ideal_eig A in (w, \matrix_(i, j) ((nz_row (eigenspace A (w 0 j))) 0 i)^*, vr).
Lemma ideal_eig2_ok r (A : 'M[C]_r) : eig2_ok ideal_eig2 A.
Proof.
rewrite /eig2_ok /ideal_eig2; have := ideal_eigP A; case: (ideal_eig A)=> [w vr] /= [H1 H2]; split=> //.
- apply/row_matrixP=> j; rewrite row_mul.
  have -> : row j (adj (\matrix_(i, j) ((nz_row (eigenspace A (w 0 j))) 0 i)^*)) = nz_row (eigenspace A (w 0 j)).
    by apply/rowP=> i; rewrite !mxE conjCK.
  have /eigenspaceP -> : (nz_row (eigenspace A (w 0 j)) <= eigenspace A (w 0 j))%MS by exact: nz_row_sub.
  by apply/rowP=> i; rewrite mul_diag_mx !mxE conjCK.
- move=> j; apply/negP=> /eqP/colP E; have := H2 j; rewrite big1; first by move/eqP; rewrite eq_sym oner_eq0.
  by move=> i _; have := E i; rewrite !mxE => ->; rewrite normr0 expr0n.
Qed.
End Met.

(** With calls that meet their contracts there is nothing left to assume: for every data pair there is a positive
    threshold below which the fitted model is the optimal one. *)
Theorem C50_end_to_end (C : numClosedFieldType) n m p rk (X Y : 'M[C]_(n, m)) :
  exists t : C, 0 < t /\ forall tol, 0 <= tol <= t ->
  let d := opt_fit_xy (ideal C) (@ideal_eig2 C) tol (opt_init C n FSvd rk 0) X Y in
  exists A : 'M[C]_n, exists r, exists M : 'M[C]_(n, r),
   [/\ forall x : 'M[C]_(n, p), opt_predict d x = Ok (A *m x), best_map r X Y A & opt_modes d = Some (existT _ r M)].
Proof.
have [HS _] := ideal_contracts C.
have [t [Ht H]] := resolved_exists (HS n m X); exists t; split=> // tol /andP[H0 Hl] d.
have EXY : compute_tlsq (ideal C) X Y 0 = (X, Y) by rewrite /compute_tlsq eqxx.
have HX : svd_ok (ideal C) (compute_tlsq (ideal C) X Y 0).1 by exact: HS.
have HR : resolved (ideal C) tol (compute_tlsq (ideal C) X Y 0).1 by rewrite EXY; exact: H.
have := @C50_svd C (ideal C) (@ideal_eig2 C) tol n m p (opt_init C n FSvd rk 0) X Y erefl H0 HX HR _ (recip_pinv HX) (HS _ _ _).
by rewrite EXY => -[A [r [M [H1 H2 H3 _ _]]]]; exists A, r, M.
Qed.

(** Refuted: "every eigenvalue returned has its eigenvector among the modes".  For the scalar sequence 1, -1 the
    best map is x -> -x, and the single mode returned is zero. *)
Theorem C50_negative_refuted (C : numClosedFieldType) (X Y : 'M[C]_(1, 1)) : X 0 0 = 1 -> Y 0 0 = - 1 ->
  exists t : C, 0 < t /\ forall tol, 0 < tol <= t ->
  let d := opt_fit_xy (ideal C) (@ideal_eig2 C) tol (opt_init C 1 FEvd (Model_Utils.RInt (BinNums.Zneg BinNums.xH)) 0) X Y in
  exists A : 'M[C]_1, exists r, exists (e : 'rV[C]_r),
   [/\ A 0 0 = - 1, (0 < r)%N, opt_eigs d = Ok (existT _ r e), opt_modes d = Some (existT _ r (const_mx 0)) & best_map r X Y A].
Proof.
move=> EX EY; have [HS _] := ideal_contracts C.
have [t [Ht H]] := resolved_exists (HS 1%N 1%N X); exists t; split=> // tol /andP[H0 Hl].
set d0 := opt_init _ _ _ _ _ => d.
have EXY : compute_tlsq (ideal C) X Y 0 = (X, Y) by rewrite /compute_tlsq eqxx.
have HX : svd_ok (ideal C) (compute_tlsq (ideal C) X Y (od_tlsq d0)).1 by exact: HS.
have HR : resolved (ideal C) tol (compute_tlsq (ideal C) X Y (od_tlsq d0)).1 by rewrite EXY; exact: H.
have := @C50_evd C (ideal C) (@ideal_eig2 C) tol 1%N 1%N d0 X Y erefl H0 HX HR _ (recip_pinv HX) (HS _ _ _) (fun o _ => ideal_eig2_ok (oo_A o)).
rewrite EXY => -[A [r [e [L [R [o [HB [H1 H2] [H3 H4] [H5 _] H6]]]]]]].
have Hr : (0 < r)%N.
  have -> : r = oo_r o by case/(congr1 (@projT1 _ _)): H4.
  case: H3=> <-; rewrite /opt_operator; case: (np_svd (ideal C) _)=> [[? ?] ?]; by rewrite compute_svdE.
have EA : A 0 0 = - 1.
  case: HB=> _ /(_ Y) /= HB.
  have HB0 : frob2 (Y - A *m X) <= 0.
    apply: le_trans (HB _) _; first exact: leq_trans (rank_leq_row _) Hr.
    suff -> : Y - Y *m X = 0 by rewrite le_eqVlt frob2_eq0 eqxx.
    by apply/matrixP=> i j; rewrite !mxE big_ord1 !ord1 EX mulr1 subrr.
  have : frob2 (Y - A *m X) = 0 by apply/le_anti; rewrite HB0 frob2_ge0.
  move/eqP; rewrite frob2_eq0 subr_eq0=> /eqP/matrixP/(_ 0 0); by rewrite mxE big_ord1 EX mulr1 EY.
exists A, r, e; split=> //; rewrite H2; congr (Some (existT _ _ _)).
apply/matrixP=> i j; rewrite ord1 mxE; apply/eqP; rewrite -[_ == _]negbK; apply/negP=> N.
have E1 : e 0 j = - 1.
  have /matrixP/(_ 0 j) := H5; rewrite mul_mx_diag !mxE big_ord1 EA => E1; apply: (mulIf N); rewrite [in RHS]E1 mulrC //.
have : np_gt (e 0 j) tol.
  rewrite -[np_gt _ _]negbK -H6; apply: contra N=> /eqP/colP/(_ 0); by rewrite !mxE => ->.
rewrite E1 np_gt_real ?rpredN ?rpred1 ?(gtr0_real H0) // => N1.
by have := lt_trans H0 N1; rewrite ltr0N1.
Qed.

(** ** Concrete cases *)
(** three complex snapshots of two entries, any rank *)
Example C50_case rk : exists t : algCnumClosedField, 0 < t /\ forall tol, 0 <= tol <= t ->
  let X : 'M[algCnumClosedField]_(2, 2) := \matrix_(i, j) (if i == j then 2%:R else 'i) in
  let Y : 'M[algCnumClosedField]_(2, 2) := \matrix_(i, j) (if i == j then 'i else 1) in
  let d := opt_fit_xy (ideal _) (@ideal_eig2 _) tol (opt_init _ 2 FSvd rk 0) X Y in
  exists A, opt_predict d X = Ok (A *m X) /\ exists r, best_map r X Y A.
Proof.
have [t [Ht H]] := @C50_end_to_end algCnumClosedField 2 2 2 rk (\matrix_(i, j) (if i == j then 2%:R else 'i)) (\matrix_(i, j) (if i == j then 'i else 1)).
exists t; split=> // tol Hl; have [A [r [M [H1 H2 _]]]] := H _ Hl; exists A; split=> //; by exists r.
Qed.
Example C50_flip := @C50_negative_refuted algCnumClosedField (const_mx 1) (const_mx (- 1)) (mxE _ _ _ _) (mxE _ _ _ _).

Print Assumptions C50_svd.
Print Assumptions C50_evd.
Print Assumptions C50_svd_exact.
Print Assumptions C50_predict_errors.
Print Assumptions C50_refused.
Print Assumptions C50_refit.
Print Assumptions C50_one_argument.
Print Assumptions C50_end_to_end.
Print Assumptions C50_negative_refuted.
