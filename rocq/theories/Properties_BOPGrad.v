(** * C41: the Jacobian of BOPDMD's variable projection is a derivative, and its steps point downhill *)
From mathcomp Require Import all_ssreflect all_fingroup all_algebra.
From Verif Require Import Py LinAlg Model_Operator Spec_Operator Proofs_Operator Ideal Proofs_Subspace.
From Verif Require Import Proofs_LandoDeriv Proofs_Limit Proofs_VarProJac Spec_VarPro Model_BOP Spec_BOP Proofs_BOPJac Proofs_BOP Properties_BOP.
From Verif Require Properties_VarPro.
Set Implicit Arguments. Unset Strict Implicit. Unset Printing Implicit Defensive.
Import Order.TTheory GRing.Theory Num.Theory.
Local Open Scope ring_scope.

Section Gen.
Variable C : numClosedFieldType.
Lemma left_inv_pinv k l (F : 'M[C]_(k, l)) : row_full F -> is_pinv F (left_inv F).
Proof.
move=> RF; have K := left_invK RF; split.
- by rewrite -mulmxA K mulmx1. - by rewrite K mul1mx. - exact: proj_herm. - by rewrite K adj1.
Qed.
Lemma ravelF_D a b (A B : 'M[C]_(a, b)) : ravelF (A + B) = ravelF A + ravelF B.
Proof. by rewrite /ravelF !linearD. Qed.
Lemma ravelF_Z a b c (A : 'M[C]_(a, b)) : ravelF (c *: A) = c *: ravelF A.
Proof. by rewrite /ravelF !linearZ. Qed.
Lemma ravelF_N a b (A : 'M[C]_(a, b)) : ravelF (- A) = - ravelF A.
Proof. by rewrite /ravelF !linearN. Qed.
Lemma ravelF_0 a b : ravelF (0 : 'M[C]_(a, b)) = 0.
Proof. by rewrite /ravelF !linear0. Qed.
Lemma ravelF_inj a b (A B : 'M[C]_(a, b)) : ravelF A = ravelF B -> A = B.
Proof. by rewrite /ravelF => /trmx_inj /(can_inj mxvecK) /trmx_inj. Qed.
Lemma ravelF_sum a b n (A : 'I_n -> 'M[C]_(a, b)) : ravelF (\sum_i A i) = \sum_i ravelF (A i).
Proof. by apply: (big_morph (@ravelF C a b)) => [X Y|]; rewrite ?ravelF_D ?ravelF_0. Qed.
Lemma ravelF_at a b (A : 'M[C]_(a, b)) i : exists p q, forall B : 'M[C]_(a, b), ravelF B i 0 = B p q.
Proof.
have [[q p] E] : exists pq : 'I_b * 'I_a, i = mxvec_index pq.1 pq.2 by case: (mxvec_indexP i) => q p; exists (q, p).
by exists p, q => B; rewrite /ravelF E mxE mxvecE mxE.
Qed.
Lemma ravelF_dot a b (A B : 'M[C]_(a, b)) : (adj (ravelF A) *m ravelF B) 0 0 = \tr (adj A *m B).
Proof.
rewrite mxE /mxtrace; under [RHS]eq_bigr do rewrite mxE.
rewrite pair_bigA /= (reindex _ (curry_mxvec_bij b a)) /=; apply: eq_bigr => -[i j] _ /=.
by rewrite !adjE /ravelF !mxE !mxvecE !mxE.
Qed.
Lemma tr_swap a b (Z W : 'M[C]_(a, b)) : \tr (adj Z *m W) = (\tr (adj W *m Z))^*.
Proof. by rewrite -!ravelF_dot !mxE rmorph_sum; apply: eq_bigr => i _; rewrite !adjE rmorphM conjCK mulrC. Qed.
Lemma frob2_derivative a b (F : C -> 'M[C]_(a, b)) D : mx_derivative F D ->
  is_derivative (fun s => frob2 (F s)) (2%:R * 'Re (\tr (adj (F 0) *m D))).
Proof.
move=> H.
have -> : 2%:R * 'Re (\tr (adj (F 0) *m D)) = \sum_i \sum_j (D i j * (F 0 i j)^* + F 0 i j * (D i j)^*).
  rewrite ReE mulrC divfK ?pnatr_eq0 // /mxtrace.
  under eq_bigr do rewrite mxE; rewrite exchange_big rmorph_sum -big_split; apply: eq_bigr => i _.
  rewrite rmorph_sum -big_split; apply: eq_bigr => j _ /=; by rewrite adjE rmorphM conjCK mulrC.
apply: derivative_sum => i; apply: derivative_sum => j.
apply: derivative_ext (derivativeM (H i j) (derivative_conj (H i j))) => s _ /=; by rewrite normCK.
Qed.
Lemma diag_at n (f : 'I_n -> C) (d : 'rV[C]_n) k : (diag_mx (\row_k f k) *m d^T) k 0 = f k * d 0 k.
Proof. by rewrite mul_diag_mx !mxE. Qed.
End Gen.

Section Grad.
Variable C : numClosedFieldType.
Variables (np : numpy C) (x : ext C).
Variable o : vopts C.
Variables (M IS : nat) (H : 'M[C]_(M, IS)) (t : 'rV[C]_M) (r : nat) (al : 'rV[C]_r).
Local Notation F a := (exponentials (x_exp x) t a).
Local Notation B a := (compute_B np x None H t a).
(** the residual as a function of the eigenvalues: the coefficients are those the code computes for them *)
Local Notation R a := (H - F a *m B a).
Local Notation J := (djac np x o H t al (B al)).
Hypothesis LS : forall a b (A : 'M[C]_(a, b)) y, lstsq_ok np A y.
Hypothesis SV : svd_ok np (F al).
Hypothesis NC : no_cut np x t al.
Hypothesis RF : row_full (F al).
Hypothesis EX : forall i j, exp_near (x_exp x) (t 0 i * al 0 j).

Let L := left_inv (F al).
Lemma BE (a : 'rV[C]_r) : row_full (F a) -> B a = left_inv (F a) *m H.
Proof. by move=> Rf; apply: resid_proj => //; apply: lstsq_mxP => j; exact: LS. Qed.
Definition dF (dl : 'rV[C]_r) : 'M[C]_(M, r) := \sum_k dl 0 k *: exp_deriv x t al k.
Lemma dFE dl i j : dF dl i j = dl 0 j * (t 0 i * x_exp x (t 0 i * al 0 j)).
Proof.
rewrite summxE (bigD1 j) //= big1 ?addr0; last by move=> k N; rewrite !mxE eq_sym (negPf N) mulr0.
by rewrite !mxE eqxx [al 0 j * _]mulrC.
Qed.
Lemma F_derivative dl : mx_derivative (fun s => F (al + s *: dl)) (dF dl).
Proof.
move=> i j; rewrite dFE mulrCA mulrA; apply: derivative_ext (EX i j (t 0 i * dl 0 j)) => s _.
by rewrite !mxE mulrDr mulrCA.
Qed.
Lemma LR : L *m R al = 0.
Proof. by rewrite BE // mulmxBr !mulmxA left_invK // mul1mx subrr. Qed.
Lemma R_derivative dl : mx_derivative (fun s => R (al + s *: dl))
  (- ((1%:M - F al *m L) *m dF dl *m B al + adj L *m adj (dF dl) *m R al)).
Proof.
have F0 : F (al + 0 *: dl) = F al by rewrite scale0r addr0.
have RF0 : row_full (F (al + 0 *: dl)) by rewrite F0.
have [/mx_derivative_limit D N] := resid_derivative H RF0 (F_derivative dl).
rewrite F0 -/L in D; apply/mx_derivative_limit.
have -> : - ((1%:M - F al *m L) *m dF dl *m B al + adj L *m adj (dF dl) *m R al) =
  - (1%:M - F al *m L) *m dF dl *m L *m H - adj L *m adj (dF dl) *m (H - F al *m L *m H).
  by rewrite opprD BE // !mulNmx !mulmxA.
apply: mx_limit_near D; apply: near_imp N => s _ _ Rs.
by rewrite (BE Rs) (BE RF0) F0 !mulmxA.
Qed.
Lemma J_dir (dl : 'rV[C]_r) : J *m dl^T = ravelF ((1%:M - F al *m L) *m dF dl *m B al +
  (if vo_fulljac o then adj L *m (\sum_k dl 0 k *: adj (exp_deriv x t al k)) *m R al else 0)).
Proof.
have E k := djac_colE o H (B al) k SV NC (left_inv_pinv RF).
have -> : J *m dl^T = \sum_k dl 0 k *: ravelF (djac_col np x o H t al (B al) k).
  apply/colP => i; rewrite !mxE summxE; apply: eq_bigr => k _; by rewrite !mxE mulrC.
under eq_bigr do rewrite -ravelF_Z; rewrite -ravelF_sum; congr ravelF.
under eq_bigr do rewrite E scalerDr; rewrite big_split; congr (_ + _).
  rewrite /dF mulmx_sumr mulmx_suml; apply: eq_bigr => k _; by rewrite -scalemxAr -scalemxAl.
case: (vo_fulljac o); last by rewrite big1 // => k _; rewrite scaler0.
rewrite mulmx_sumr mulmx_suml; apply: eq_bigr => k _; by rewrite -scalemxAr -scalemxAl.
Qed.
Lemma adj_dF dl : adj (dF dl) = \sum_k (dl 0 k)^* *: adj (exp_deriv x t al k).
Proof. by rewrite /dF adj_sum; apply: eq_bigr => k _; rewrite adjZ. Qed.

(** Moving the eigenvalues along a real direction: the full Jacobian is the derivative of the residual, with the sign of the
    code, which subtracts the model. *)
Theorem C41_derivative (dl : 'rV[C]_r) : vo_fulljac o -> all_real dl ->
  mx_derivative (fun s => ravelF (R (al + s *: dl))) (- (J *m dl^T)).
Proof.
move=> Fj Rd; rewrite J_dir Fj.
have -> : \sum_k dl 0 k *: adj (exp_deriv x t al k) = adj (dF dl).
  by rewrite adj_dF; apply: eq_bigr => k _; rewrite (CrealP (Rd k)).
rewrite -ravelF_N => i j; rewrite (ord1 j); have [p [q E]] := @ravelF_at C M IS H i; rewrite E.
apply: derivative_ext (R_derivative dl p q) => s _; by rewrite E.
Qed.
(** Along the imaginary direction of eigenvalue k it is so exactly when the residual is orthogonal to the slope of the k-th
    exponential. *)
Theorem C41_derivative_imaginary (k : 'I_r) : vo_fulljac o -> let dl := delta_mx 0 k in
  mx_derivative (fun s => ravelF (R (al + s *: ('i *: dl)))) (- (J *m ('i *: dl)^T)) <-> adj (exp_slope (x_exp x) t al k) *m R al = 0.
Proof.
move=> Fj dl; have Ed j : ('i *: dl) 0 j = 'i * (j == k)%:R by rewrite !mxE eqxx.
have S1 : \sum_j ('i *: dl) 0 j *: adj (exp_deriv x t al j) = 'i *: adj (exp_deriv x t al k).
  rewrite (bigD1 k) //= big1 ?addr0; first by rewrite Ed eqxx mulr1.
  by move=> j N; rewrite Ed (negPf N) mulr0 scale0r.
have S2 : adj (dF ('i *: dl)) = - 'i *: adj (exp_deriv x t al k).
  rewrite adj_dF (bigD1 k) //= big1 ?addr0; first by rewrite Ed eqxx mulr1 conjCi.
  by move=> j N; rewrite Ed (negPf N) mulr0 conjC0 scale0r.
have D : mx_derivative (fun s => ravelF (R (al + s *: ('i *: dl)))) (ravelF (- ((1%:M - F al *m L) *m dF ('i *: dl) *m B al + adj L *m adj (dF ('i *: dl)) *m R al))).
  move=> i j; rewrite (ord1 j); have [p [q E]] := @ravelF_at C M IS H i; rewrite E.
  apply: derivative_ext (R_derivative ('i *: dl) p q) => s _; by rewrite E.
rewrite J_dir Fj S1; rewrite S2 in D.
set G := adj L *m adj (exp_deriv x t al k) *m R al.
have E0 : G = 0 <-> adj (exp_slope (x_exp x) t al k) *m R al = 0.
  have X : adj (exp_deriv x t al k) *m R al = delta_mx k 0 *m (adj (exp_slope (x_exp x) t al k) *m R al).
    have -> : exp_deriv x t al k = exp_slope (x_exp x) t al k *m delta_mx 0 k.
      apply/matrixP => i j; rewrite !mxE big_ord1 !mxE eqxx /= [al 0 k * _]mulrC; case: eqP => _; by rewrite ?mulr1 ?mulr0.
    by rewrite adjM adj_delta mulmxA.
  split=> [G0|Z]; last by rewrite /G -mulmxA X Z !mulmx0.
  have FL : adj (F al) *m adj L = 1%:M by rewrite -adjM left_invK // adj1.
  have : adj (F al) *m G = delta_mx k 0 *m (adj (exp_slope (x_exp x) t al k) *m R al) by rewrite /G !mulmxA FL mul1mx X !mulmxA.
  rewrite G0 mulmx0; move: (adj _ *m R al) => v Ev; apply/rowP => b; have := congr1 (fun Z : 'M[C]_(r, IS) => Z k b) Ev.
  by rewrite [RHS]mxE mxE big_ord1 !mxE !eqxx mul1r.
have X1 : adj L *m (- 'i *: adj (exp_deriv x t al k)) *m R al = - 'i *: G by rewrite -scalemxAr -scalemxAl.
have X2 : adj L *m ('i *: adj (exp_deriv x t al k)) *m R al = 'i *: G by rewrite -scalemxAr -scalemxAl.
rewrite X1 in D; rewrite X2 -ravelF_N -E0; split=> [H1|H0]; last by move: D; rewrite H0 !scaler0.
have := mx_limit_unique (proj1 (mx_derivative_limit _ _) H1) (proj1 (mx_derivative_limit _ _) D).
move=> /ravelF_inj /oppr_inj /addrI /eqP; rewrite -subr_eq0 -scalerBl opprK scaler_eq0 -mulr2n mulrn_eq0 /= (negPf (neq0Ci C)) => /eqP //.
Qed.

(** The squared error falls, along any complex direction and with the full Jacobian or the approximate one, at twice the rate
    the Jacobian gives. *)
Theorem C41_gradient (dl : 'rV[C]_r) :
  is_derivative (fun s => frob2 (R (al + s *: dl))) (- (2%:R * 'Re ((adj (J *m dl^T) *m ravelF (R al)) 0 0))).
Proof.
have := frob2_derivative (R_derivative dl); rewrite scale0r addr0.
have orth (Z : 'M[C]_(r, IS)) : adj (R al) *m (adj L *m Z) = 0 by rewrite mulmxA -adjM LR adj0 mul0mx.
have -> : - (2%:R * 'Re ((adj (J *m dl^T) *m ravelF (R al)) 0 0)) = 2%:R * 'Re (\tr (adj (R al) *m
   - ((1%:M - F al *m L) *m dF dl *m B al + adj L *m adj (dF dl) *m R al))).
  rewrite J_dir ravelF_dot mulmxN linearN raddfN mulrN; congr (- (_ * _)).
  have Ec (Z W : 'M[C]_(M, IS)) : 'Re (\tr (adj Z *m W)) = 'Re (\tr (adj W *m Z)).
    by rewrite tr_swap Re_conj.
  rewrite Ec; congr ('Re (\tr _)); rewrite [LHS]mulmxDr [RHS]mulmxDr; congr (_ + _).
  rewrite -[X in _ = _ *m X]mulmxA orth; case: (vo_fulljac o); last by rewrite mulmx0.
  by rewrite -[X in _ *m X = _]mulmxA orth.
by [].
Qed.

(** The damped step of the code: the squared error falls along it, at the rate |J d|^2 + |lam|^2 |S d|^2 (S the column scales);
    strictly unless the gradient is zero. *)
Theorem C41_downhill lam : qr_ok x J ->
  let d := delta np x o H t al (B al) lam in
  let rate := frob2 (J *m d^T) + `|lam| ^+ 2 * \sum_k `|scales np x o H t al (B al) 0 k| ^+ 2 * `|d 0 k| ^+ 2 in
  [/\ is_derivative (fun s => frob2 (R (al + s *: d))) (- (2%:R * rate)), 0 <= rate
    & adj J *m ravelF (R al) != 0 -> 0 < rate].
Proof.
move=> Q d rate.
have St := C41_step lam Q (fun A y => LS A y); rewrite -/d in St.
have E : (adj (J *m d^T) *m ravelF (R al)) 0 0 = rate.
  have -> : adj (J *m d^T) *m ravelF (R al) = adj d^T *m (adj J *m ravelF (R al)) by rewrite adjM mulmxA.
  rewrite -[F al]/(\matrix_(i, j) x_exp x (t 0 i * al 0 j)) -St mulmxDl mulmxDr mxE; congr (_ + _).
    by rewrite !mulmxA -adjM -!mulmxA frob2_tr' /mxtrace big_ord1.
  rewrite -scalemxAl -scalemxAr mxE; congr (_ * _); rewrite mxE; apply: eq_bigr => k _.
  by rewrite adjE mul_diag_mx !mxE [_ * d 0 k]mulrC mulrA -normCKC mulrC.
have P : 0 <= rate.
  by rewrite addr_ge0 ?frob2_ge0 // mulr_ge0 ?exprn_ge0 // sumr_ge0 // => k _; rewrite mulr_ge0 ?exprn_ge0.
split=> //; first by have := C41_gradient d; rewrite E (Creal_ReP _ (ger0_real P)).
move=> N; rewrite lt_def P andbT; apply: contra N => /eqP Z.
have P1 := frob2_ge0 (J *m d^T).
have P2 : 0 <= `|lam| ^+ 2 * \sum_k `|scales np x o H t al (B al) 0 k| ^+ 2 * `|d 0 k| ^+ 2.
  by rewrite mulr_ge0 ?exprn_ge0 // sumr_ge0 // => k _; rewrite mulr_ge0 ?exprn_ge0.
have /andP [/eqP Z1 /eqP Z2] : (frob2 (J *m d^T) == 0) && (`|lam| ^+ 2 * (\sum_k `|scales np x o H t al (B al) 0 k| ^+ 2 * `|d 0 k| ^+ 2) == 0).
  by rewrite -paddr_eq0 //; apply/eqP.
have Jd : J *m d^T = 0 by apply/eqP; rewrite -frob2_eq0 Z1.
rewrite -[F al]/(\matrix_(i, j) x_exp x (t 0 i * al 0 j)) -St mulmxDl -mulmxA Jd mulmx0 add0r.
apply/eqP/colP => k; rewrite -scalemxAl mxE diag_at [RHS]mxE.
move/eqP: Z2; rewrite mulf_eq0 => /orP [/eqP ->|]; first by rewrite mul0r.
rewrite psumr_eq0 => [/allP /(_ k (mem_index_enum k))|j _]; last by rewrite mulr_ge0 ?exprn_ge0.
by rewrite mulf_eq0 !expf_eq0 /= !normr_eq0 => /orP [/eqP ->|/eqP ->]; rewrite ?normr0 ?expr0n ?mul0r ?mulr0.
Qed.

(** The gradient the code computes vanishes exactly at the stationary points of the squared error. *)
Theorem C41_stationary : adj J *m ravelF (R al) = 0 <-> forall dl, is_derivative (fun s => frob2 (R (al + s *: dl))) 0.
Proof.
have E dl : (adj (J *m dl^T) *m ravelF (R al)) 0 0 = \sum_k (dl 0 k)^* * (adj J *m ravelF (R al)) k 0.
  by rewrite adjM -mulmxA mxE; apply: eq_bigr => k _; rewrite adjE mxE.
split=> [Z dl|Z].
  have := C41_gradient dl; rewrite E big1 ?raddf0 ?mulr0 ?oppr0 // => k _; by rewrite Z mxE mulr0.
apply/colP => k; rewrite [RHS]mxE; set g := adj J *m _ in E *.
have := limit_unique (derivative_limit (C41_gradient (g k 0 *: delta_mx 0 k))) (derivative_limit (Z _)).
rewrite E (bigD1 k) //= big1 ?addr0; last by move=> j N; rewrite !mxE (negPf N) andbF mulr0 conjC0 mul0r.
rewrite !mxE !eqxx mulr1 -normCKC (Creal_ReP _ _) ?ger0_real ?exprn_ge0 // => /eqP.
by rewrite oppr_eq0 mulf_eq0 pnatr_eq0 /= expf_eq0 /= normr_eq0 => /eqP.
Qed.
End Grad.

(** ** A concrete case: samples 0 and 1 at times 0 and 1, one eigenvalue, at 0.  Moving it along the imaginary axis, the Jacobian is
    not the derivative; all the hypotheses hold. *)
Section Case.
Variables (C : numClosedFieldType) (x : ext C) (o : vopts C).
Hypothesis E0 : exp_near (x_exp x) 0.
Hypothesis E1 : x_exp x 0 = 1.
Let np := ideal C.
Let t : 'rV[C]_2 := \row_i (nat_of_ord i)%:R.
Let H : 'cV[C]_2 := \col_i (nat_of_ord i)%:R.
Let al : 'rV[C]_1 := 0.
Lemma case_contracts : (forall a b (A : 'M[C]_(a, b)) y, lstsq_ok np A y) /\ (forall a b (A : 'M[C]_(a, b)), svd_ok np A).
Proof. by have [Sv [_ [Ls _]]] := ideal_contracts C; split. Qed.
Lemma case_exps : exponentials (x_exp x) t al = const_mx 1.
Proof. by apply/matrixP => i j; rewrite !mxE mulr0 E1. Qed.
Lemma case_rank : row_full (exponentials (x_exp x) t al).
Proof.
rewrite case_exps; apply/row_fullP; exists (delta_mx 0 0); apply/matrixP => i j.
by rewrite mxE !ord1 (bigD1 ord0) //= big1 ?addr0 => [|b /negPf N]; rewrite !mxE ?N ?mul0r // mul1r.
Qed.
Lemma case_exp_near i j : exp_near (x_exp x) (t 0 i * al 0 j).
Proof. by rewrite [al 0 j]mxE mulr0. Qed.
Lemma case_no_cut : no_cut np x t al.
Proof.
move=> i j _; have -> : i = j by case: i j => [[|i] Hi] [[|j] Hj] //; exact: val_inj.
have [_ /(_ _ _ (exponentials (x_exp x) t al))] := case_contracts.
rewrite /svd_ok -[exp_mx x t al]/(exponentials (x_exp x) t al); case: (np_svd _ _) => [[U s] Vh] /= [_ _ _ /(_ j) P _] N.
have {N} {}P : 0 < s 0 j by rewrite lt_def N.
rewrite -[X in _ < X]mul1r ltr_pmul2r // /feps ltr_pdivr_mulr ?exprn_gt0 ?ltr0n // mul1r -natrX ltr_nat.
by rewrite -[X in (X < _)%N]expn1 ltn_exp2l.
Qed.
Theorem C41_derivative_refuted : vo_fulljac o -> let dl := 'i *: delta_mx 0 0 in
  ~ mx_derivative (fun s => ravelF (H - exponentials (x_exp x) t (al + s *: dl) *m compute_B np x None H t (al + s *: dl)))
      (- (djac np x o H t al (compute_B np x None H t al) *m dl^T)).
Proof.
move=> Fj dl; have [LS SV] := case_contracts.
move=> /(C41_derivative_imaginary H LS (SV _ _ _) case_no_cut case_rank case_exp_near 0 Fj); rewrite case_exps.
have : is_lstsq (exponentials (x_exp x) t al) H (compute_B np x None H t al) by apply: lstsq_mxP => j; exact: LS.
rewrite /is_lstsq case_exps.
move: (compute_B _ _ _ _ _ _) => B /(congr1 (fun M : 'M[C]_1 => M 0 0)) EB /(congr1 (fun M : 'M[C]_1 => M 0 0)).
have -> : (adj (exp_slope (x_exp x) t al 0) *m (H - const_mx 1 *m B)) 0 0 = 1 - B 0 0.
  rewrite mxE !big_ord_recr big_ord0 /= add0r !mxE /= !big_ord1 !mxE /=.
  by rewrite !mul0r !mul1r E1 conjC0 conjC1 mul0r add0r !mul1r.
have : (adj (const_mx 1 : 'M[C]_(2, 1)) *m H) 0 0 = 1.
  by rewrite mxE !big_ord_recr big_ord0 /= !mxE /= mulr0 !add0r conjC1 mulr1.
rewrite -EB => {}EB; rewrite mxE => /eqP; rewrite subr_eq0 => /eqP B1; move: EB; rewrite -mulmxA mxE !big_ord_recr big_ord0 /= !mxE !big_ord1 !mxE -B1.
by rewrite conjC1 !mulr1 add0r => /eqP; rewrite -subr_eq0 addrK oner_eq0.
Qed.
End Case.

(** the hypotheses hold with 1 + z for the exponential *)
Section Witness.
Variable C : numClosedFieldType.
Let x := ideal_ext (fun z : C => 1 + z).
Let o : vopts C := VOpts 1 52 2%:R true 30 (10%:R ^+ 6)^-1 (10%:R ^+ 12)^-1 true.
Let t : 'rV[C]_2 := \row_i (nat_of_ord i)%:R.
Let H : 'cV[C]_2 := \col_i (nat_of_ord i)%:R.
Let al : 'rV[C]_1 := 0.
Let one0 : x_exp x 0 = 1. Proof. exact: addr0. Qed.
Let near0 : exp_near (x_exp x) 0. Proof. exact: Properties_VarPro.line_near. Qed.
Example C41_gradient_case (dl : 'rV[C]_1) lam :
  let B a := compute_B (ideal C) x None H t a in let R a := H - exponentials (x_exp x) t a *m B a in
  let J := djac (ideal C) x o H t al (B al) in
  (all_real dl -> mx_derivative (fun s => ravelF (R (al + s *: dl))) (- (J *m dl^T))) /\
  is_derivative (fun s => frob2 (R (al + s *: dl))) (- (2%:R * 'Re ((adj (J *m dl^T) *m ravelF (R al)) 0 0))) /\
  let d := delta (ideal C) x o H t al (B al) lam in
  exists2 rate, 0 <= rate & is_derivative (fun s => frob2 (R (al + s *: d))) (- (2%:R * rate)).
Proof.
move=> B R J; have [LS SV] := case_contracts C; have NC := @case_no_cut C x; have RF := case_rank one0.
have EX := case_exp_near near0.
split; first by move=> Hd; apply: C41_derivative.
split; first exact: C41_gradient.
move=> d; have [_ _ Q] := ideal_ext_ok (fun z : C => 1 + z).
by have [D P _] := @C41_downhill C _ _ o _ _ H _ _ _ LS (SV _ _ _) NC RF EX lam (Q _ _ J isT); eexists; [exact: P|exact: D].
Qed.
End Witness.
Print Assumptions C41_derivative.
Print Assumptions C41_derivative_imaginary.
Print Assumptions C41_gradient.
Print Assumptions C41_downhill.
Print Assumptions C41_stationary.
Print Assumptions C41_derivative_refuted.
