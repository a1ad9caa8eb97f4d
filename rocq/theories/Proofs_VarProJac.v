(** * The derivative of the residual of a variable projection *)
From mathcomp Require Import all_ssreflect all_fingroup all_algebra.
From Verif Require Import Py LinAlg Model_Operator Spec_Operator Proofs_Subspace Proofs_LandoDeriv Proofs_Limit Model_VarPro Proofs_VarPro.
Set Implicit Arguments. Unset Strict Implicit. Unset Printing Implicit Defensive.
Import Order.TTheory GRing.Theory Num.Theory.
Local Open Scope ring_scope.

Section Projector.
Variable C : numClosedFieldType.
Definition left_inv k l (F : 'M[C]_(k, l)) : 'M[C]_(l, k) := invmx (adj F *m F) *m adj F.
Lemma gram_unit k l (F : 'M[C]_(k, l)) : row_full F = (adj F *m F \in unitmx).
Proof.
apply/idP/idP => [Rf|U]; last by apply/row_fullP; exists (left_inv F); rewrite /left_inv -mulmxA mulVmx.
rewrite -row_free_unit -kermx_eq0; apply/eqP; set K := kermx _.
have : K *m (adj F *m F) = 0 by exact: mulmx_ker.
move=> H; have : adj F *m F *m adj K = 0 by apply: (@adj_inj C); rewrite adj0 !adjM !adjK.
by move=> /gram_cancel H0; apply: (@adj_inj C); rewrite adj0; apply: (full_col_cancel Rf); rewrite mulmx0.
Qed.
Lemma left_invK k l (F : 'M[C]_(k, l)) : row_full F -> left_inv F *m F = 1%:M.
Proof. by rewrite gram_unit => U; rewrite /left_inv -mulmxA mulVmx. Qed.
Lemma adj_invmx l (G : 'M[C]_l) : adj (invmx G) = invmx (adj G).
Proof.
by rewrite /adj map_invmx trmx_inv.
Qed.
Lemma proj_herm k l (F : 'M[C]_(k, l)) : adj (F *m left_inv F) = F *m left_inv F.
Proof. by rewrite /left_inv !adjM adj_invmx !adjM adjK !mulmxA. Qed.
(** a least squares residual, and the one of the projection *)
Lemma resid_proj k l q (F : 'M[C]_(k, l)) (Y : 'M[C]_(k, q)) (B : 'M[C]_(l, q)) : row_full F -> is_lstsq F Y B -> B = left_inv F *m Y.
Proof. by rewrite gram_unit /is_lstsq /left_inv => U E; rewrite -mulmxA -E mulmxA mulVmx // mul1mx. Qed.

Lemma increment k l q (F G : 'M[C]_(k, l)) (Y : 'M[C]_(k, q)) : row_full F -> row_full G ->
  (Y - G *m left_inv G *m Y) - (Y - F *m left_inv F *m Y) =
  - (1%:M - G *m left_inv G) *m (G - F) *m left_inv F *m Y - adj (left_inv G) *m adj (G - F) *m (Y - F *m left_inv F *m Y).
Proof.
move=> RF RG; have KF := left_invK RF; have KG := left_invK RG.
have E1 : (1%:M - G *m left_inv G) *m (G - F) = - (1%:M - G *m left_inv G) *m F.
  by rewrite mulmxBr mulmxBl mul1mx -[G *m left_inv G *m G]mulmxA KG mulmx1 subrr sub0r mulNmx.
have FZ : adj F *m (Y - F *m left_inv F *m Y) = 0.
  by rewrite mulmxBr !mulmxA -[adj F *m F *m _]mulmxA -/(left_inv F) /left_inv !mulmxA mulmxV -?gram_unit // mul1mx subrr.
have E2 : adj (left_inv G) *m adj (G - F) *m (Y - F *m left_inv F *m Y) = G *m left_inv G *m (Y - F *m left_inv F *m Y).
  move: FZ; move: (Y - _) => Z FZ; by rewrite adjB mulmxBr mulmxBl -adjM proj_herm -[X in _ - X]mulmxA FZ mulmx0 subr0.
rewrite E2 !mulNmx E1.
set P := F *m left_inv F *m Y; have -> : - (1%:M - G *m left_inv G) *m F *m left_inv F *m Y = - (P - G *m left_inv G *m P).
  by rewrite /P !mulNmx -!mulmxA mulmxBl mul1mx !mulmxA.
by rewrite mulmxBr opprK [LHS]addrC !opprB !addrA !subrK.
Qed.

Lemma adj_delta m n (i : 'I_m) (j : 'I_n) : adj (delta_mx i j) = delta_mx j i :> 'M[C]_(n, m).
Proof. by apply/matrixP => a b; rewrite !mxE rmorph_nat andbC. Qed.
Lemma outer_sum k l (d : 'rV[C]_l) (c : 'I_l -> 'cV[C]_k) :
  \matrix_(i, j) (d 0 j * c j i 0) = \sum_j d 0 j *: (c j *m delta_mx 0 j).
Proof.
apply/matrixP => i j; rewrite mxE summxE (bigD1 j) //= big1 ?addr0 => [|j' /negPf N]; rewrite mxE [(_ *m _) _ _]mxE big_ord1 mxE eqxx /=.
  by rewrite mulr1.
by rewrite eq_sym N !mulr0.
Qed.
Lemma adj_sum m n l (F : 'I_l -> 'M[C]_(m, n)) : adj (\sum_j F j) = \sum_j adj (F j).
Proof.
by apply: (big_morph (@adj C m n)) => [A B|]; rewrite ?adjD ?adj0.
Qed.
(** ** Derivatives *)
Lemma derivativeM (F G : C -> C) a b : is_derivative F a -> is_derivative G b -> is_derivative (fun t => F t * G t) (a * G 0 + F 0 * b).
Proof.
move=> HF HG; apply: limit_derivative; have := limitD (limitM (derivative_limit HF) (derivative_continuous HG)) (limitM (limit_const (F 0)) (derivative_limit HG)).
apply: limit_ext => t _ N; rewrite [_ / t * _]mulrAC [F 0 * _]mulrA -mulrDl; congr (_ / t).
by rewrite mulrBl mulrBr addrA subrK.
Qed.
Lemma limit_Re (F : C -> C) a : is_limit F a -> is_limit (fun t => 'Re (F t)) ('Re a).
Proof.
move=> H; rewrite ReE; apply: limit_ext (limitM (limitD H (limit_conj H)) (limit_const (2%:R^-1))) => t _ _.
by rewrite ReE.
Qed.
Lemma derivative_Re (F : C -> C) a : is_derivative F a -> is_derivative (fun t => 'Re (F t)) ('Re a).
Proof.
move=> /derivative_limit /limit_Re H; apply: limit_derivative; apply: limit_ext H => t R _.
by rewrite -raddfB /= mulrC [RHS]mulrC ReMl ?rpredV.
Qed.
Lemma derivative_Im (F : C -> C) a : is_derivative F a -> is_derivative (fun t => 'Im (F t)) ('Im a).
Proof.
move=> H; have := derivative_Re (derivativeZ (- 'i) H).
have E z : 'Re (- 'i * z) = 'Im z.
  by rewrite {1}[z]Crect mulNr mulrDr mulrA -expr2 sqrCi mulN1r opprD opprK addrC -mulrN Re_rect ?rpredN ?Creal_Re ?Creal_Im.
by rewrite E; apply: derivative_ext => t _; rewrite E.
Qed.
Lemma derivative_conj (F : C -> C) a : is_derivative F a -> is_derivative (fun t => (F t)^*) a^*.
Proof.
move=> /derivative_limit /limit_conj H; apply: limit_derivative; apply: limit_ext H => t R _.
by rewrite rmorphM /= rmorphB fmorphV (CrealP R).
Qed.
(** the residual of the projection on the range of a moving matrix (Golub and Pereyra) *)
Lemma resid_derivative k l q (F : C -> 'M[C]_(k, l)) (dF : 'M[C]_(k, l)) (Y : 'M[C]_(k, q)) : row_full (F 0) -> mx_derivative F dF ->
  mx_derivative (fun t => Y - F t *m left_inv (F t) *m Y)
    (- (1%:M - F 0 *m left_inv (F 0)) *m dF *m left_inv (F 0) *m Y - adj (left_inv (F 0)) *m adj dF *m (Y - F 0 *m left_inv (F 0) *m Y))
  /\ near (fun t => row_full (F t)).
Proof.
move=> RF HF; have CF := mx_derivative_continuous HF; have /mx_derivative_limit LF := HF.
have CG : mx_limit (fun t => adj (F t) *m F t) (adj (F 0) *m F 0) by apply: mx_limitM => //; exact: mx_limit_adj.
have UG : adj (F 0) *m F 0 \in unitmx by rewrite -gram_unit.
have [NU CI] := mx_limit_inv UG CG.
have CL : mx_limit (fun t => left_inv (F t)) (left_inv (F 0)) by apply: mx_limitM => //; exact: mx_limit_adj.
have NR : near (fun t => row_full (F t)) by apply: near_imp NU => t _ _; rewrite gram_unit.
split=> //; apply/mx_derivative_limit.
set R0 := Y - _; apply: (mx_limit_near (F := fun t => - (1%:M - F t *m left_inv (F t)) *m (t^-1 *: (F t - F 0)) *m left_inv (F 0) *m Y - adj (left_inv (F t)) *m adj (t^-1 *: (F t - F 0)) *m R0)).
  have : near (fun t => row_full (F t) /\ t \is Num.real) by apply: near_and => //; apply: nearT.
  apply: near_imp => t _ _ [Rt Re]; rewrite (increment Y RF Rt) -/R0.
  by rewrite adjZ (CrealP _) ?rpredV // -!scalemxAr -!scalemxAl -scalerBr.
have L1 : mx_limit (fun t => - (1%:M - F t *m left_inv (F t))) (- (1%:M - F 0 *m left_inv (F 0))).
  exact: mx_limitN (mx_limitD (mx_limit_const _) (mx_limitN (mx_limitM CF CL))).
have L2 := mx_limitM (mx_limitM (mx_limitM L1 LF) (mx_limit_const (left_inv (F 0)))) (mx_limit_const Y).
have L3 := mx_limitM (mx_limitM (mx_limit_adj CL) (mx_limit_adj LF)) (mx_limit_const R0).
exact: mx_limitD L2 (mx_limitN L3).
Qed.
End Projector.

Section Jac.
Variables (C : numClosedFieldType) (np : numpy C) (x : vext C).
Hypothesis HS : forall m n (M : 'M[C]_(m, n)), svd_ok np M.

Section At.
Variables (k l q : nat) (t : 'rV[C]_k) (Y : 'M[C]_(k, q)) (w : 'rV[C]_l).
Local Notation Phi := (vexp x t w).
Local Notation h := (evaluate np x t Y w).
Local Notation L := (left_inv Phi).
Hypothesis RF : row_full Phi.

Lemma eval_B : h_B h = L *m Y.
Proof. exact: resid_proj RF (eval_lstsq Y (HS _)). Qed.
Lemma eval_R : h_rho h = Y - Phi *m L *m Y.
Proof. by rewrite (eval_rho Y (HS _) RF) eval_B mulmxA. Qed.
Lemma eval_pinv : scale_cols (h_V h) (h_sinv h) *m adj (h_U h) = L.
Proof.
have := resid_proj RF (eval_lstsq 1%:M (HS (vexp x t w))); rewrite /evaluate; case: (np_svd np Phi) => [[U s] Vh] /=.
by rewrite !mulmx1.
Qed.
Lemma eval_proj : h_U h *m adj (h_U h) = Phi *m L.
Proof.
have := eval_rho 1%:M (HS _) RF; rewrite (resid_proj RF (eval_lstsq 1%:M (HS (vexp x t w)))) /evaluate.
case: (np_svd np Phi) => [[U s] Vh] /=; rewrite !mulmx1 => /(congr1 (fun M => 1%:M - M)); by rewrite !opprB ![1%:M + _]addrC !subrK.
Qed.
Lemma eval_adj : scale_cols (h_U h) (h_sinv h) *m adj (h_V h) = adj L.
Proof.
rewrite -eval_pinv adjM adjK !scale_colsE adjM adj_diag -mulmxA; congr (_ *m (_ *m _)); congr diag_mx.
have := HS (vexp x t w); rewrite /svd_ok /evaluate; case: (np_svd np Phi) => [[U s] Vh] /= [_ _ _ S0 _].
by apply/rowP => j; rewrite !mxE; apply/esym/CrealP; rewrite rpredV ger0_real.
Qed.
Definition dphi (j : 'I_l) : 'cV[C]_k := \col_i (t 0 i * Phi i j).
Lemma jac_jE j : jac_j t h j = - (1%:M - Phi *m L) *m (dphi j *m row j (L *m Y)) - col j (adj L) *m (adj (dphi j) *m (Y - Phi *m L *m Y)).
Proof.
have Ep : h_phi h = Phi by rewrite /evaluate; case: (np_svd np Phi) => [[U s] Vh].
rewrite /jac_j Ep eval_B eval_R -/(dphi j) [X in - (_ - X) - _]mulmxA eval_proj mulNmx mulmxBl mul1mx; congr (_ - _).
by rewrite mulmxA -eval_adj colE rowE adjM adj_delta !mulmxA.
Qed.
End At.

Section Along.
Variables (k l q : nat) (t : 'rV[C]_k) (Y : 'M[C]_(k, q)) (w dl : 'rV[C]_l).
Local Notation Phi := (vexp x t w).
Local Notation L := (left_inv Phi).
Hypothesis RF : row_full Phi.
Hypothesis HE : forall i j b, is_derivative (fun s => v_exp x (t 0 i * w 0 j + s * b)) (b * v_exp x (t 0 i * w 0 j)).

Definition true_dir : 'M[C]_(k, q) :=
  \sum_j dl 0 j *: (- (1%:M - Phi *m L) *m (dphi t w j *m row j (L *m Y))) -
  \sum_j (dl 0 j)^* *: (col j (adj L) *m (adj (dphi t w j) *m (Y - Phi *m L *m Y))).
Lemma vexp_derivative : mx_derivative (fun s => vexp x t (w + s *: dl)) (\matrix_(i, j) (dl 0 j * dphi t w j i 0)).
Proof.
move=> i j; rewrite !mxE mulrCA mulrA; apply: derivative_ext (HE i j (t 0 i * dl 0 j)) => s _.
by rewrite !mxE mulrDr mulrCA.
Qed.
Lemma rho_derivative : mx_derivative (fun s => h_rho (evaluate np x t Y (w + s *: dl))) true_dir.
Proof.
have F0 : vexp x t (w + 0 *: dl) = Phi by rewrite scale0r addr0.
have RF0 : row_full (vexp x t (w + 0 *: dl)) by rewrite F0.
have [/mx_derivative_limit H N] := resid_derivative Y RF0 vexp_derivative.
have -> : true_dir = (- (1%:M - Phi *m L) *m (\matrix_(i, j) (dl 0 j * dphi t w j i 0)) *m L *m Y - adj L *m adj (\matrix_(i, j) (dl 0 j * dphi t w j i 0)) *m (Y - Phi *m L *m Y)).
  have E : \matrix_(i, j) (dl 0 j * dphi t w j i 0) = \sum_j dl 0 j *: (dphi t w j *m delta_mx 0 j).
    exact: outer_sum.
  rewrite E /true_dir; congr (_ - _).
    by rewrite mulmx_sumr !mulmx_suml; apply: eq_bigr => j _; rewrite -scalemxAr -!scalemxAl rowE !mulmxA.
  rewrite adj_sum mulmx_sumr mulmx_suml; apply: eq_bigr => j _.
  by rewrite adjZ adjM -scalemxAr -scalemxAl adj_delta colE !mulmxA.
apply/mx_derivative_limit; rewrite F0 in H; apply: mx_limit_near H; apply: near_imp N => s _ _ Rs.
by rewrite (eval_R _ RF0) (eval_R _ Rs) F0.
Qed.
End Along.

(** ** The Jacobian of the code *)
Lemma pack_derivative p (F : C -> 'rV[C]_p) (D : 'rV[C]_p) : mx_derivative F D -> mx_derivative (fun s => pack (F s)) (pack D).
Proof.
move=> H i j; rewrite (ord1 i); case: (split_ordP j) => j' ->; rewrite ?row_mxEl ?row_mxEr mxE.
  by apply: derivative_ext (derivative_Re (H 0 j')) => s _; rewrite row_mxEl mxE.
by apply: derivative_ext (derivative_Im (H 0 j')) => s _; rewrite row_mxEr mxE.
Qed.
Lemma mxvec_derivative k q (F : C -> 'M[C]_(k, q)) D : mx_derivative F D -> mx_derivative (fun s => mxvec (F s)) (mxvec D).
Proof.
move=> H i j; rewrite (ord1 i); case/mxvec_indexP: j => a b; rewrite mxvecE.
by apply: derivative_ext (H a b) => s _; rewrite mxvecE.
Qed.
Lemma unpackD p (a b : 'rV[C]_(p + p)) : unpack (a + b) = unpack a + unpack b.
Proof. by apply/rowP => j; rewrite !mxE mulrDr addrACA. Qed.
Lemma unpackZ p c (a : 'rV[C]_(p + p)) : unpack (c *: a) = c *: unpack a.
Proof. by apply/rowP => j; rewrite !mxE mulrDr [c * ('i * _)]mulrCA. Qed.
Lemma pack_inj p : injective (@pack C p).
Proof. exact: can_inj (@packK C p). Qed.
Lemma ReM (a b : C) : 'Re (a * b) = 'Re a * 'Re b - 'Im a * 'Im b.
Proof.
rewrite {1}[a]Crect {1}[b]Crect mulC_rect ?Creal_Re ?Creal_Im // Re_rect ?rpredB ?rpredD ?rpredM ?Creal_Re ?Creal_Im //.
Qed.
Lemma ImM (a b : C) : 'Im (a * b) = 'Re a * 'Im b + 'Re b * 'Im a.
Proof.
rewrite {1}[a]Crect {1}[b]Crect mulC_rect ?Creal_Re ?Creal_Im // Im_rect ?rpredB ?rpredD ?rpredM ?Creal_Re ?Creal_Im //.
Qed.
Definition jac_dir k l q (t : 'rV[C]_k) (h : helper C k l q) (dl : 'rV[C]_l) : 'M[C]_(k, q) := \sum_j dl 0 j *: jac_j t h j.
Lemma jacobianE k l q (t : 'rV[C]_k) (Y : 'M[C]_(k, q)) (a d : 'rV[C]_(l + l)) : (forall j, d 0 j \is Num.real) ->
  d *m (jacobian np x t Y a)^T = pack (mxvec (jac_dir t (evaluate np x t Y (unpack a)) (unpack d))).
Proof.
move=> R; rewrite -{1}[d]unpackK //; move: (unpack d) => dl; rewrite /jacobian; set h := evaluate _ _ _ _ _.
rewrite tr_block_mx /pack mul_row_block; 
have E i : mxvec (jac_dir t h dl) 0 i = \sum_j dl 0 j * jac_c t h i j.
  rewrite /jac_dir linear_sum summxE; apply: eq_bigr => j _; by rewrite linearZ !mxE.
congr row_mx; apply/rowP => i; rewrite !mxE E raddf_sum -big_split; apply: eq_bigr => j _ /=.
  by rewrite [in LHS]/map_mx !mxE ReM mulrN.
by rewrite !mxE ImM mulrC [X in _ + X]mulrC addrC.
Qed.

Section Dir.
Variables (k l q : nat) (t : 'rV[C]_k) (Y : 'M[C]_(k, q)) (a d : 'rV[C]_(l + l)).
Local Notation w := (unpack a).
Local Notation dl := (unpack d).
Local Notation Phi := (vexp x t w).
Local Notation L := (left_inv Phi).
Local Notation rho := (h_rho (evaluate np x t Y w)).
Hypothesis RF : row_full Phi.
Hypothesis HE : forall i j b, is_derivative (fun s => v_exp x (t 0 i * w 0 j + s * b)) (b * v_exp x (t 0 i * w 0 j)).
Hypothesis Hd : forall j, d 0 j \is Num.real.

Lemma residual_dir : mx_derivative (fun s => residual np x t Y (a + s *: d)) (pack (mxvec (true_dir t Y w dl))).
Proof.
have := pack_derivative (mxvec_derivative (rho_derivative Y dl RF HE)) => H i j.
by apply: derivative_ext (H i j) => s _; rewrite /residual unpackD unpackZ.
Qed.
Definition g_part (j : 'I_l) : 'M[C]_(k, q) := col j (adj L) *m (adj (dphi t w j) *m rho).
Lemma true_jac : true_dir t Y w dl = jac_dir t (evaluate np x t Y w) dl + \sum_j (dl 0 j - (dl 0 j)^*) *: g_part j.
Proof.
rewrite /true_dir /jac_dir -sumrN -!big_split; apply: eq_bigr => j _ /=.
by rewrite jac_jE // /g_part (eval_R Y RF) scalerBr scalerBl -addrA; congr (_ + _); rewrite addrA addNr add0r.
Qed.
Lemma g_part0 j : g_part j = 0 <-> adj (dphi t w j) *m rho = 0.
Proof.
split=> [H|H]; last by rewrite /g_part H mulmx0.
have E : adj Phi *m adj L = 1%:M by rewrite -adjM left_invK // adj1.
have : adj Phi *m g_part j = delta_mx j 0 *m (adj (dphi t w j) *m rho).
  by rewrite /g_part colE !mulmxA E mul1mx.
rewrite H mulmx0; move: (adj _ *m rho) => v Ev; apply/rowP => b; have := congr1 (fun M : 'M[C]_(l, q) => M j b) Ev.
by rewrite [RHS]mxE mxE big_ord1 !mxE !eqxx mul1r.
Qed.
Lemma g_orth j : adj rho *m g_part j = 0.
Proof.
have E : L *m rho = 0 by rewrite /left_inv -mulmxA eval_orth // mulmx0.
by rewrite /g_part colE !mulmxA -adjM E adj0 !mul0mx.
Qed.
Lemma pack_dot p (u v : 'rV[C]_p) : \sum_j pack u 0 j * pack v 0 j = 'Re (\sum_j (u 0 j)^* * v 0 j).
Proof.
rewrite big_split_ord raddf_sum -big_split /=; apply: eq_bigr => j _.
by rewrite !row_mxEl !row_mxEr !mxE ReM Re_conj Im_conj mulNr opprK.
Qed.
Lemma mxvec_dot (M N : 'M[C]_(k, q)) : \sum_j (mxvec M 0 j)^* * mxvec N 0 j = \tr (adj M *m N).
Proof.
rewrite /mxtrace; under [RHS]eq_bigr do rewrite mxE; rewrite exchange_big pair_bigA /=.
rewrite (reindex _ (curry_mxvec_bij k q)) /=; apply: eq_bigr => -[i j] _ /=; by rewrite !mxvecE adjE.
Qed.
Lemma cost_dir : is_derivative (fun s => \sum_i residual np x t Y (a + s *: d) 0 i ^+ 2)
  (2%:R * (d *m (jacobian np x t Y a)^T *m (residual np x t Y a)^T) 0 0).
Proof.
have Er : residual np x t Y (a + 0 *: d) = residual np x t Y a by rewrite scale0r addr0.
have -> : 2%:R * (d *m (jacobian np x t Y a)^T *m (residual np x t Y a)^T) 0 0 =
  \sum_i (pack (mxvec (true_dir t Y w dl)) 0 i * residual np x t Y a 0 i + residual np x t Y a 0 i * pack (mxvec (true_dir t Y w dl)) 0 i).
  rewrite jacobianE // true_jac linearD /= packD mxE mulr_sumr.
  have : \sum_i pack (mxvec rho) 0 i * pack (mxvec (\sum_j (dl 0 j - (dl 0 j)^*) *: g_part j)) 0 i = 0.
    rewrite pack_dot mxvec_dot mulmx_sumr linear_sum big1 ?raddf0 // => j _.
    by rewrite -scalemxAr g_orth scaler0 linear0.
  set G := pack (mxvec (\sum_j _)) => E.
  rewrite -[pack (mxvec rho)]/(residual np x t Y a) in E; move: E; move: (residual np x t Y a) (pack (mxvec (jac_dir _ _ _))) G => r J G E.
  have E2 : \sum_i 2%:R * (r 0 i * G 0 i) = 0 by rewrite -mulr_sumr E mulr0.
  rewrite -[LHS]addr0 -[X in _ + X = _]E2 -big_split; apply: eq_bigr => i _ /=.
  by rewrite !mxE [J 0 i * _]mulrC [(_ + _) * r 0 i]mulrC -mulr2n mulrDr mulrnDl !mulr_natl.
apply: derivative_sum => i; rewrite -Er; apply: derivative_ext (derivativeM (residual_dir 0 i) (residual_dir 0 i)) => s _.
by rewrite expr2.
Qed.
End Dir.
End Jac.
