(** * VarProDMD: the optimisation problem handed to least_squares (C49) *)
From mathcomp Require Import all_ssreflect all_fingroup all_algebra.
From Verif Require Import Py LinAlg Ideal Model_Operator Spec_Operator Proofs_Subspace Proofs_LandoDeriv Proofs_Limit Model_VarPro Proofs_VarPro Proofs_VarProJac Spec_VarPro.
From Verif Require Model_Utils.
Set Implicit Arguments. Unset Strict Implicit. Unset Printing Implicit Defensive.
Import Order.TTheory GRing.Theory Num.Theory.
Local Open Scope ring_scope.

Section Problem.
Variables (C : numClosedFieldType) (np : numpy C) (x : vext C).

Lemma complex_ofE l (a : 'rV[C]_(l + l)) : complex_of a = unpack a.
Proof. by apply/rowP => j; rewrite !mxE. Qed.

(** Packing complex numbers as real parameters is a bijection with the real vectors, and keeps the sum of squares. *)
Theorem C49_packing l :
  (forall w : 'rV[C]_l, all_real (pack w) /\ complex_of (pack w) = w /\ sum_sq (pack w) = \sum_j `|w 0 j| ^+ 2) /\
  (forall a : 'rV[C]_(l + l), all_real a -> pack (complex_of a) = a) /\ (forall a : 'rV[C]_(l + l), unpack a = complex_of a).
Proof.
split=> [w|]; last by split=> a *; rewrite complex_ofE ?unpackK.
split; first exact: pack_real.
split; first by rewrite complex_ofE packK.
by rewrite -pack_norm; apply: eq_bigr => j _; rewrite real_normK ?pack_real.
Qed.

Hypothesis HS : forall m n (M : 'M[C]_(m, n)), svd_ok np M.
Variables (k l q : nat) (t : 'rV[C]_k) (Y : 'M[C]_(k, q)).

(** The residual at eigenvalues whose exponentials are independent: Y minus the best combination of the exponentials, and
    its sum of squares is the smallest squared error.  The coefficients kept by the evaluation are the best ones. *)
Theorem C49_residual (a : 'rV[C]_(l + l)) : let E := exponentials (v_exp x) t (complex_of a) in row_full E ->
  exists R, [/\ residual np x t Y a = pack (mxvec R), R = Y - E *m h_B (evaluate np x t Y (complex_of a)),
                forall B, frob2 R <= frob2 (Y - E *m B) & sum_sq (residual np x t Y a) = frob2 R].
Proof.
rewrite complex_ofE => E RF; exists (h_rho (evaluate np x t Y (unpack a))); split=> //.
- exact: eval_rho.
- by move=> B; rewrite eval_rho //; exact: eval_best.
have [/(_ _)H _] := C49_packing (k * q); rewrite /residual; have [_ [_ ->]] := H (mxvec (h_rho (evaluate np x t Y (unpack a)))).
rewrite /frob2 pair_bigA /= (reindex _ (curry_mxvec_bij k q)) /=; apply: eq_bigr => -[i j] _; by rewrite mxvecE.
Qed.

(** With at most as many samples as eigenvalues the residual is 0 at every point, whatever the data: the optimiser has
    nothing to do. *)
Lemma tall_proj (U : 'M[C]_(k, minn k l)) : (k <= l)%N -> adj U *m U = 1%:M -> U *m adj U = 1%:M.
Proof.
move=> kl UU; have PU : U *m adj U *m U = U by rewrite -mulmxA UU mulmx1.
have RU : \rank U = k.
  have F : row_full U by apply/row_fullP; exists (adj U).
  by move: F; rewrite /row_full => /eqP ->; exact/minn_idPl.
have UP : U *m adj U \in unitmx.
  rewrite -row_free_unit /row_free eqn_leq rank_leq_row -{1}RU -{1}PU; exact: mxrankM_maxl.
have : U *m adj U *m (U *m adj U) = U *m adj U by rewrite mulmxA PU.
by move=> /(congr1 (mulmx (invmx (U *m adj U)))); rewrite mulKmx // mulVmx.
Qed.
Theorem C49_few_samples (a : 'rV[C]_(l + l)) : (k <= l)%N -> residual np x t Y a = 0.
Proof.
move=> kl; rewrite /residual (_ : h_rho _ = 0).
  by rewrite linear0 pack0.
have := HS (vexp x t (unpack a)); rewrite /svd_ok /evaluate; case: (np_svd np _) => [[U s] Vh] /= [_ UU _ _ _].
by rewrite mulmxA tall_proj // mul1mx subrr.
Qed.

(** ** The Jacobian.  [ex] is differentiable at the exponents of the point, as the exponential is. *)
Section Jacobian.
Variable a : 'rV[C]_(l + l).
Local Notation w := (complex_of a).
Local Notation E := (exponentials (v_exp x) t w).
Local Notation R := (Y - E *m h_B (evaluate np x t Y w)).
Hypothesis RF : row_full E.
Hypothesis HE : forall i j, exp_near (v_exp x) (t 0 i * w 0 j).

Let RF' : row_full (vexp x t (unpack a)).
Proof. by move: RF; rewrite complex_ofE. Qed.
Let HE' i j b : is_derivative (fun s => v_exp x (t 0 i * unpack a 0 j + s * b)) (b * v_exp x (t 0 i * unpack a 0 j)).
Proof. by have := HE i j b; rewrite complex_ofE. Qed.

Lemma dir_diff (d : 'rV[C]_(l + l)) : all_real d ->
  mx_derivative (fun s => residual np x t Y (a + s *: d))
    (d *m (jacobian np x t Y a)^T + pack (mxvec (\sum_j ((unpack d 0 j - (unpack d 0 j)^*) *: g_part np x t Y a j)))).
Proof. by move=> Hd; rewrite jacobianE // -packD -linearD /= -true_jac //; exact: residual_dir. Qed.

(** moving the real parts of the eigenvalues: the Jacobian is the derivative of the residual *)
Theorem C49_jacobian (d : 'rV[C]_(l + l)) : all_real d -> (forall j, d 0 (rshift l j) = 0) ->
  mx_derivative (fun s => residual np x t Y (a + s *: d)) (d *m (jacobian np x t Y a)^T).
Proof.
move=> Hd H0; have := dir_diff Hd; rewrite big1 ?linear0 ?pack0 ?addr0 // => j _.
by rewrite !mxE H0 mulr0 addr0 (CrealP (Hd _)) subrr scale0r.
Qed.

(** moving the imaginary part of eigenvalue j: it is so exactly when the residual is orthogonal to the slope of the j-th
    exponential *)
Theorem C49_jacobian_imaginary (j : 'I_l) : let d := delta_mx 0 (rshift l j) in
  mx_derivative (fun s => residual np x t Y (a + s *: d)) (d *m (jacobian np x t Y a)^T) <-> adj (exp_slope (v_exp x) t w j) *m R = 0.
Proof.
move=> d; have Hd : all_real d by move=> i; rewrite mxE; case: (_ && _); rewrite ?rpred1 ?rpred0.
have Er : R = h_rho (evaluate np x t Y (unpack a)) by rewrite complex_ofE eval_rho.
have Es : exp_slope (v_exp x) t w j = dphi x t (unpack a) j by apply/colP => i; rewrite !mxE.
have D := dir_diff Hd; rewrite (bigD1 j) //= big1 ?addr0 in D; last first.
  move=> i ij; have -> : unpack d 0 i = 0.
    by rewrite /d !mxE eqxx eq_lrshift (inj_eq (@rshift_inj _ _)) (negPf ij) mulr0 addr0.
  by rewrite conjC0 subrr scale0r.
have dj : unpack d 0 j - (unpack d 0 j)^* = 'i *+ 2.
  by rewrite /d !mxE !eqxx eq_lrshift /= add0r mulr1 conjCi opprK.
rewrite dj in D; rewrite Er Es -g_part0 //; split=> [H|H].
  have := mx_limit_unique (proj1 (mx_derivative_limit _ _) H) (proj1 (mx_derivative_limit _ _) D).
  move=> /(congr1 (fun v => v - d *m (jacobian np x t Y a)^T)); rewrite subrr addrC addKr => /esym.
  rewrite -[0](@pack0 _ (k * q)) => /pack_inj /(congr1 vec_mx); rewrite mxvecK linear0 => /eqP.
  rewrite scaler_eq0 mulrn_eq0 /= (negPf (neq0Ci C)) /= => /eqP //.
by move: D; rewrite H scaler0 linear0 pack0 addr0.
Qed.

(** the gradient of the cost, in every direction: Jacobian transposed times residual *)
Theorem C49_gradient (d : 'rV[C]_(l + l)) : all_real d ->
  is_derivative (fun s => sum_sq (residual np x t Y (a + s *: d))) (2%:R * (d *m (jacobian np x t Y a)^T *m (residual np x t Y a)^T) 0 0).
Proof. by move=> Hd; exact: cost_dir. Qed.
(** so the points at which the optimiser stops for a zero gradient are the stationary points of the squared error *)
Theorem C49_stationary : residual np x t Y a *m jacobian np x t Y a = 0 <->
  forall d, all_real d -> is_derivative (fun s => sum_sq (residual np x t Y (a + s *: d))) 0.
Proof.
set v := _ *m jacobian _ _ _ _ _.
have Ev (d : 'rV[C]_(l + l)) : (d *m (jacobian np x t Y a)^T *m (residual np x t Y a)^T) 0 0 = (v *m d^T) 0 0.
  by rewrite /v -mulmxA -trmx_mul -[d in LHS]trmxK -trmx_mul mxE.
split=> [v0 d Hd|H]; first by have := C49_gradient Hd; rewrite Ev v0 mul0mx mxE mulr0.
apply/rowP => j; have Hd : all_real (delta_mx 0 j : 'rV[C]_(l + l)) by move=> i; rewrite mxE; case: (_ && _); rewrite ?rpred1 ?rpred0.
have := limit_unique (derivative_limit (C49_gradient Hd)) (derivative_limit (H _ Hd)); rewrite Ev => /eqP.
by rewrite mulf_eq0 pnatr_eq0 /= => /eqP; rewrite trmx_delta -colE !mxE.
Qed.
End Jacobian.
End Problem.

(** ** A concrete case: samples 0 and 1 at times 0 and 1, one eigenvalue, at 0.  Moving it along the imaginary axis, the
    Jacobian is not the derivative. *)
Section Case.
Variables (C : numClosedFieldType) (x : vext C).
Hypothesis E0 : exp_near (v_exp x) 0.
Hypothesis E1 : v_exp x 0 = 1.
Let np := ideal C.
Let t : 'rV[C]_2 := \row_i (nat_of_ord i)%:R.
Let Y : 'cV[C]_2 := \col_i (nat_of_ord i)%:R.
Let a : 'rV[C]_(1 + 1) := 0.

Lemma case_svd m n (M : 'M[C]_(m, n)) : svd_ok np M.
Proof. by have [Sv _] := ideal_contracts C; exact: Sv. Qed.
Lemma case_exp : exponentials (v_exp x) t (complex_of a) = const_mx 1.
Proof. by apply/matrixP => i j; rewrite !mxE mulr0 addr0 mulr0 E1. Qed.
Lemma case_full : row_full (exponentials (v_exp x) t (complex_of a)).
Proof.
rewrite case_exp; apply/row_fullP; exists (delta_mx 0 0); apply/matrixP => i j.
by rewrite mxE !ord1 (bigD1 ord0) //= big1 ?addr0 => [|b /negPf N]; rewrite !mxE ?N ?mul0r // mul1r.
Qed.
Lemma case_near i j : exp_near (v_exp x) (t 0 i * complex_of a 0 j).
Proof. by rewrite !mxE mulr0 addr0 mulr0. Qed.
Theorem C49_jacobian_refuted : let d := delta_mx 0 (rshift 1 0) in
  ~ mx_derivative (fun s => residual np x t Y (a + s *: d)) (d *m (jacobian np x t Y a)^T).
Proof.
move=> d /(C49_jacobian_imaginary case_svd Y case_full case_near); rewrite case_exp.
have := eval_lstsq Y (case_svd (vexp x t (complex_of a))); rewrite /is_lstsq -[vexp x t _]/(exponentials (v_exp x) t (complex_of a)) case_exp.
move: (h_B _) => B /(congr1 (fun M : 'M[C]_1 => M 0 0)) H /(congr1 (fun M : 'M[C]_1 => M 0 0)).
have -> : (adj (exp_slope (v_exp x) t (complex_of a) 0) *m (Y - const_mx 1 *m B)) 0 0 = 1 - B 0 0.
  rewrite mxE !big_ord_recr big_ord0 /= add0r !mxE /= !big_ord1 !mxE /= !mul0r conjC0 mul0r add0r !mul1r mulr0 addr0 E1.
  by rewrite conjC1 !mul1r.
have : (adj (const_mx 1 : 'M[C]_(2, 1)) *m Y) 0 0 = 1.
  by rewrite mxE !big_ord_recr big_ord0 /= !mxE /= mulr0 !add0r conjC1 mulr1.
rewrite -H => {}H; rewrite mxE => /eqP; rewrite subr_eq0 => /eqP B1; move: H; rewrite -mulmxA mxE !big_ord_recr big_ord0 /= !mxE !big_ord1 !mxE -B1.
by rewrite conjC1 !mulr1 add0r => /eqP; rewrite -subr_eq0 addrK oner_eq0.
Qed.
End Case.

(** with fewer samples than needed: equal eigenvalues, samples 0 and 1.  The residual vanishes, no combination fits. *)
Theorem C49_cost_refuted (C : numClosedFieldType) (x : vext C) : v_exp x 0 = 1 ->
  let t : 'rV[C]_2 := \row_i (nat_of_ord i)%:R in let Y : 'cV[C]_2 := \col_i (nat_of_ord i)%:R in let a : 'rV[C]_(2 + 2) := 0 in
  sum_sq (residual (ideal C) x t Y a) = 0 /\ forall B, 0 < frob2 (Y - exponentials (v_exp x) t (complex_of a) *m B).
Proof.
move=> E1 t Y a; split.
  by rewrite C49_few_samples //; [rewrite /sum_sq big1 // => j _; rewrite mxE expr0n | exact: case_svd].
move=> B; rewrite lt_def frob2_ge0 andbT frob2_eq0; apply/eqP => /matrixP H; have := H 0 0; have := H 1 0.
rewrite !mxE /= !big_ord_recr !big_ord0 /= !mxE /= !mulr0 !addr0 !mulr0 !E1 => /eqP; rewrite subr_eq0 => /eqP <- /eqP.
by rewrite sub0r oppr_eq0 oner_eq0.
Qed.

(** the hypotheses hold with 1 + z for the exponential, which agrees with it to first order at 0 *)
Section Witness.
Variable C : numClosedFieldType.
Lemma line_near : exp_near (fun z : C => 1 + z) 0.
Proof.
move=> b e e0; exists 1 => [|s _ _]; first exact: ltr01.
by rewrite addr0 mulr1 !add0r mul0r addr0 [1 + _]addrC addrK subrr normr0 mulr_ge0 // ltW.
Qed.
Let x : vext C := VExt (fun z => 1 + z) (fun _ _ _ => [::]) (fun _ _ => 0%N) (fun _ _ => 1%g) (fun _ _ _ _ a => Ok ([:: a], a)).
Let t : 'rV[C]_2 := \row_i (nat_of_ord i)%:R.
Let Y : 'cV[C]_2 := \col_i (nat_of_ord i)%:R.
Let one0 : v_exp x 0 = 1. Proof. exact: addr0. Qed.
Let near0 : exp_near (v_exp x) 0. Proof. exact: line_near. Qed.
Let a : 'rV[C]_(1 + 1) := 0.
Let dre : 'rV[C]_(1 + 1) := delta_mx 0 (lshift 1 0).
Let dim : 'rV[C]_(1 + 1) := delta_mx 0 (rshift 1 0).
Example C49_case :
  mx_derivative (fun s => residual (ideal C) x t Y (a + s *: dre)) (dre *m (jacobian (ideal C) x t Y a)^T) /\
  ~ mx_derivative (fun s => residual (ideal C) x t Y (a + s *: dim)) (dim *m (jacobian (ideal C) x t Y a)^T) /\
  is_derivative (fun s => sum_sq (residual (ideal C) x t Y (a + s *: dim))) 
    (2%:R * (dim *m (jacobian (ideal C) x t Y a)^T *m (residual (ideal C) x t Y a)^T) 0 0).
Proof.
have R (j : 'I_(1 + 1)) : all_real (delta_mx 0 j : 'rV[C]_(1 + 1)) by move=> i; rewrite mxE; case: (_ && _); rewrite ?rpred1 ?rpred0.
split; [|split].
- apply: C49_jacobian; [exact: case_svd|exact: case_full|exact: case_near|exact: R|].
  by move=> j; rewrite mxE eqxx eq_rlshift.
- exact: C49_jacobian_refuted.
by apply: C49_gradient; [exact: case_svd|exact: case_full|exact: case_near|exact: R].
Qed.
End Witness.
Print Assumptions C49_packing.
Print Assumptions C49_residual.
Print Assumptions C49_few_samples.
Print Assumptions C49_jacobian.
Print Assumptions C49_jacobian_imaginary.
Print Assumptions C49_gradient.
Print Assumptions C49_stationary.
Print Assumptions C49_jacobian_refuted.
Print Assumptions C49_cost_refuted.
