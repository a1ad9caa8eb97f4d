(** * LANDO: the analysis about a fixed point (C47) *)
From mathcomp Require Import all_ssreflect all_algebra all_field.
From Verif Require Import Py LinAlg Model_Operator Spec_Operator Ideal Model_Lando Spec_Lando Proofs_Lando Proofs_LandoOnline Proofs_LandoDeriv
  Proofs_CDMD
  Properties_Lando.
Set Implicit Arguments. Unset Strict Implicit. Unset Printing Implicit Defensive.
Import Order.TTheory GRing.Theory Num.Theory.
Local Open Scope ring_scope.

Section Fix.
Variables (C : numClosedFieldType) (np : numpy C) (n : nat) (ex : C -> C) (ks : kspec C n) (cplx : bool).
Local Notation lando := (lando C n).
Local Notation k := (kernel ex ks).

(** ** Specification *)
(** the vector [v] added to every column *)
Definition shifted a (v : 'cV[C]_n) (X : 'M[C]_(n, a)) : 'M[C]_(n, a) := \matrix_(i, j) (v i 0 + X i j).
(** [A] is the derivative at [p] of a function from vectors to vectors, along every real line through [p] *)
Definition derivative_at m q (F : 'cV[C]_m -> 'cV[C]_q) (p : 'cV[C]_m) (A : 'M[C]_(q, m)) : Prop :=
  forall (h : 'cV[C]_m) i, is_derivative (fun t => F (p + t *: h) i 0) ((A *m h) i 0).
(** the gradient that the code uses for [k(d, .)] is its derivative *)
Definition good_gradient : Prop := forall d y, exists2 g, gradient ex ks d y = Ok g &
  derivative_at (fun y' => (k d y')%:M : 'cV[C]_1) y g.

(** ** Proofs *)
Lemma shiftedE a v (X : 'M[C]_(n, a)) : add_col v X = shifted v X.
Proof. by apply/matrixP => i j; rewrite !mxE addrC. Qed.

Lemma shiftK a v (X : 'M[C]_(n, a)) : shifted v (add_col (- v) X) = X.
Proof. by apply/matrixP => i j; rewrite !mxE addrC subrK. Qed.

Lemma analyze_atP d o fp w d' : analyze_at np ex ks d o fp w = (d', Ok tt) -> exists l A,
  [/\ linear_operator np ex ks (lc_rank (la_cfg d)) o (rescaled (la_scale d) fp) (factors (la_scale d)) = Ok (l, A),
      la_lin d' = Some l, la_A d' = (if w then Some A else la_A d) & la_fix d' = Some (fp, model_of ex ks o (la_scale d) fp)].
Proof.
have Sk (d1 : lando) : let d2 := (seen d1).1 in [/\ la_lin d2 = la_lin d1, la_A d2 = la_A d1 & la_fix d2 = la_fix d1].
  rewrite /seen /shown; case E: (la_lin d1) => [l|] //=; case: (la_px d1) => [p|] //=.
  by case: (la_b d1) => [[j b]|] //=; case: eqP.
rewrite /analyze_at; case: (linear_operator _ _ _ _ _ _ _) => [[l A]|e]; last by [].
set d2 := Lando _ _ _ _ _ _ _ _ _ _ _; have := Sk d2; case: (seen d2) => d3 [[[j [Phi e]]|]|e] /= [H1 H2 H3]; case: (la_snap d) => [[N Sn]|] //.
case: (Model_EDMD.edmd_amplitudes _ _ _ _ _) => [b|e'] //= [<-] /=; exists l, A; split=> //; by rewrite ?H1 ?H2 ?H3.
Qed.
Lemma analyzeP d shape fp w d' : analyze_fixed_point np ex ks d shape fp w = (d', Ok tt) -> exists o l G,
  [/\ la_op d = Some o, shape = la_shape d, scaled_gradient ex ks o (rescaled (la_scale d) fp) (factors (la_scale d)) = Ok G,
      linear_operator np ex ks (lc_rank (la_cfg d)) o (rescaled (la_scale d) fp) (factors (la_scale d)) = Ok (l, lo_W o *m G) &
      [/\ la_op d' = Some o, la_scale d' = la_scale d, la_shape d' = la_shape d & [/\
      la_lin d' = Some l, la_A d' = (if w then Some (lo_W o *m G) else la_A d) & la_fix d' = Some (fp, model_of ex ks o (la_scale d) fp)]]].
Proof.
rewrite /analyze_fixed_point; case Eo: (la_op d) => [o|] //; case: eqP => // Es E.
have [Ko _ Ks Kh] := analyze_at_keeps E; have [l [A [El E1 E2 E3]]] := analyze_atP E.
move: (El); rewrite /linear_operator; case EG: (scaled_gradient _ _ _ _ _) => [G|] //=.
case: (np_eig _ _) => wv V [_ EA]; exists o, l, G; rewrite EA; split=> //; by rewrite Ko.
Qed.

(** ** C47: the three parts of the model about the fixed point add up to the model, for every perturbation; the bias
    is the value of the model at the fixed point; the analysis does not change the model *)
Theorem C47_parts d shape fp w d' : analyze_fixed_point np ex ks d shape fp w = (d', Ok tt) ->
  exists c (A : 'M[C]_n),
    [/\ bias d' = Ok c, f ex ks d' shape fp = Ok c, w -> linear d' = Ok (Some A),
        forall a (X : 'M[C]_(n, a)), f ex ks d' shape X = f ex ks d shape X &
        forall a (X : 'M[C]_(n, a)), exists N F, [/\ nonlinear ex ks d' shape X = Ok N,
          f ex ks d' shape (shifted fp X) = Ok F & F = shifted c (A *m X + N)]].
Proof.
move=> /analyzeP [o [l [G [Eo Es EG El [Eo' Esc Esh [Ell EA Ef]]]]]].
exists (model_of ex ks o (la_scale d) fp), (lo_W o *m G); split.
- by rewrite /bias Ell Ef.
- by rewrite /f Eo' Esh -Es eqxx Esc.
- by move=> W; rewrite /linear Ell EA W.
- by move=> a X; rewrite /f Eo' Eo Esh Esc.
move=> a X; rewrite /nonlinear Ell Ef Eo' Esh -Es eqxx Esc EG /= /f Eo' Esh -Es eqxx Esc /=.
exists (add_col (- model_of ex ks o (la_scale d) fp) (model_of ex ks o (la_scale d) (add_col fp X)) - lo_W o *m G *m X),
  (model_of ex ks o (la_scale d) (shifted fp X)); split=> //.
by rewrite addrC subrK shiftK shiftedE.
Qed.

(** ** The linear part is the derivative of the model at the fixed point, for kernels whose gradient is right *)
Lemma model_derivative o sc fp G : scaled_gradient ex ks o (rescaled sc fp) (factors sc) = Ok G ->
  good_gradient ->
  derivative_at (fun x => model_of ex ks o sc x) fp (lo_W o *m G).
Proof.
move=> EG Gd h i; rewrite -mulmxA [X in is_derivative _ X]mxE.
apply: (derivative_ext (F := fun t => \sum_j lo_W o i j * k (col j (lo_D o)) (rescaled sc fp + t *: rescaled sc h))).
  move=> t _; rewrite [RHS]mxE; apply: eq_bigr => j _; rewrite [kmat _ _ _ _ _ _]mxE; congr (_ * kernel _ _ _ _).
  by apply/matrixP => u v; rewrite !mxE ord1 mulrDl mulrA.
apply: derivative_sum => j; apply: derivativeZ.
have [g Eg Hg] := Gd (col j (lo_D o)) (rescaled sc fp).
have -> : (G *m h) j 0 = (g *m rescaled sc h) 0 0.
  move: EG; rewrite /scaled_gradient; case EM: (gmat _ _ _ _) => [M|] //= [<-].
  rewrite !mxE; apply: eq_bigr => v _; rewrite !mxE -mulrA [factors sc v 0 * _]mulrC; congr (_ * _).
  have -> : M = \matrix_(i, j) match gradient ex ks (col i (lo_D o)) (rescaled sc fp) with Ok g => g 0 j | Err _ => 0 end.
    by move: EM; rewrite /gmat; case: (ks) => [k0 [g0|]||ga ca da|ga] // [<-].
  by rewrite mxE Eg.
apply: derivative_ext (Hg (rescaled sc h) 0) => t _; by rewrite mxE.
Qed.
Theorem C47_derivative d shape fp d' : analyze_fixed_point np ex ks d shape fp true = (d', Ok tt) -> good_gradient ->
  exists (A : 'M[C]_n) F N, [/\ linear d' = Ok (Some A), forall x, f ex ks d' shape x = Ok (F x),
    forall x, nonlinear ex ks d' shape x = Ok (N x), derivative_at F fp A & N 0 = 0 /\ derivative_at N 0 0].
Proof.
move=> /analyzeP [o [l [G [Eo Es EG El [Eo' Esc Esh [Ell EA Ef]]]]]] Gd.
set F := fun x : 'cV[C]_n => model_of ex ks o (la_scale d) x.
set N := fun x : 'cV[C]_n => add_col (- F fp) (F (add_col fp x)) - lo_W o *m G *m x.
have HF : derivative_at F fp (lo_W o *m G) by exact: model_derivative.
have NE x i : N x i 0 = F (fp + x) i 0 - F fp i 0 - (lo_W o *m G *m x) i 0.
  have -> : fp + x = add_col fp x by apply/matrixP => u v; rewrite !mxE ord1 addrC.
  by rewrite mxE [in LHS]mxE [(- F fp) i 0]mxE [(- (_ *m _)) i 0]mxE.
exists (lo_W o *m G), F, N; split=> //.
- by rewrite /linear Ell EA.
- by move=> x; rewrite /f Eo' Esh -Es eqxx Esc.
- by move=> x; rewrite /nonlinear Ell Ef Eo' Esh -Es eqxx Esc EG /= /f Eo' Esh -Es eqxx Esc.
have N0 : N 0 = 0 by apply/matrixP => i j; rewrite ord1 NE addr0 subrr mulmx0 !mxE subr0.
split=> // h i e e0; have [dl p H] := HF h i e e0; exists dl => // t Rt Lt.
rewrite !add0r scale0r N0 mul0mx [(0 : 'cV[C]_n) i 0]mxE mulr0 !subr0 NE -scalemxAr [(t *: (_ *m h)) i 0]mxE.
by have := H t Rt Lt; rewrite scale0r addr0.
Qed.
End Fix.

(** ** The gradients of the code *)
Section Gradients.
Variables (C : numClosedFieldType) (n : nat) (ex : C -> C).
Lemma dotE (x y : 'cV[C]_n) : dot x y = \sum_i x i 0 * y i 0.
Proof. by rewrite /dot mxE; apply: eq_bigr => i _; rewrite mxE. Qed.
Lemma dot_line (d y h : 'cV[C]_n) t : dot d (y + t *: h) = dot d y + t * dot d h.
Proof. by rewrite /dot mulmxDr -scalemxAr [in LHS]mxE [X in _ + X]mxE. Qed.
Theorem C47_gradients g c e :
  good_gradient ex (@KLinear C n) /\ good_gradient ex (@KPoly C n g c e).
Proof.
split=> d y; (eexists; first exact: erefl) => h i; rewrite ord1.
- apply: (derivative_ext (F := fun t => (dot d y)%:P.[t] + t * dot d h)).
    by move=> t _; rewrite mxE mulr1n hornerC /= dot_line.
  rewrite -[X in is_derivative _ X]add0r; apply: derivativeD; last exact: derivative_line.
  by have := poly_derivative (dot d y)%:P; rewrite derivC horner0.
- set p : {poly C} := ((gamma_of n g * dot d h)%:P * 'X + (gamma_of n g * dot d y + coef_of c)%:P) ^+ degree_of e.
  apply: (derivative_ext (F := fun t => p.[t])).
    move=> t _; rewrite [RHS]mxE mulr1n /= dot_line mulrDr /p horner_exp hornerMXaddC hornerC addrC; congr (_ ^+ _).
    by rewrite addrAC [t * _]mulrC mulrA.
  have -> : ((gamma_of n g * (degree_of e)%:R * (coef_of c + gamma_of n g * dot d y) ^+ (degree_of e).-1) *: d^T *m h) 0 0 = p^`().[0].
    rewrite -scalemxAl mxE -/(dot d h) /p deriv_exp derivD derivM derivX !derivC mul0r add0r mulr1 addr0.
    rewrite hornerMn hornerM hornerC horner_exp hornerMXaddC mulr0 add0r -[RHS]mulr_natl [coef_of c + _]addrC -!mulrA.
    by rewrite [LHS]mulrCA [_ * dot d h]mulrC.
  exact: poly_derivative.
Qed.
(** a custom kernel needs the gradient the user gives to be the derivative *)
Theorem C47_custom_gradient (k : 'cV[C]_n -> 'cV[C]_n -> C) g :
  (forall d y, derivative_at (fun y' => (k d y')%:M : 'cV[C]_1) y (g d y)) -> good_gradient ex (KCustom k (Some g)).
Proof. by move=> H d y; exists (g d y). Qed.

Lemma rbf_line g (d y : 'cV[C]_n) r : (forall u, u \is Num.real -> 0 < ex u) ->
  (forall u v, u \is Num.real -> v \is Num.real -> u < v -> ex u < ex v) ->
  0 < gamma_of n g -> realm d -> realm y -> d != y -> gradient ex (KRbf g) d y = Ok r ->
  ~ is_derivative (fun t => kernel ex (KRbf g) d (y + t *: (d - y))) ((r *m (d - y)) 0 0).
Proof.
move=> P M g0 Rd Ry Ne [<-] H {r}.
set h := d - y in H *; set r := gamma_of n g in g0 H *.
have Rh : realm h by apply: realm_add => //; exact: realm_opp.
have h0 : 0 < norm2 h.
  rewrite lt_def; apply/andP; split; last by apply: sumr_ge0 => i _; rewrite exprn_ge0.
  apply/eqP => /eqP; rewrite psumr_eq0; last by move=> i _; rewrite exprn_ge0.
  move=> /allP E; move: Ne; rewrite -subr_eq0 => /eqP; apply; apply/matrixP => i j; rewrite ord1.
  have := E i (mem_index_enum i); rewrite /= sqrf_eq0 normr_eq0 => /eqP ->; by rewrite mxE.
have Rn : norm2 h \is Num.real by exact: gtr0_real.
have nE t : t \is Num.real -> norm2 (d - (y + t *: h)) = (1 - t) ^+ 2 * norm2 h.
  move=> Rt; have -> : d - (y + t *: h) = (1 - t) *: h by rewrite scalerBl scale1r opprD addrA.
  rewrite /norm2 mulr_sumr; apply: eq_bigr => i _; rewrite mxE normrM exprMn; congr (_ * _).
  by rewrite real_normK // rpredB ?real1.
apply: (derivative_sign H).
- move=> t t0 t1; have Rt := gtr0_real t0; rewrite /= -/r !nE ?real0 //.
  apply: M; rewrite ?rpredM ?rpredN ?rpredX ?rpredB ?real1 ?real0 //; try exact: gtr0_real.
  rewrite !mulNr ltr_opp2 ltr_pmul2l // ltr_pmul2r // !expr2 subr0 mulr1.
  have t2 : 0 < 1 - t by rewrite subr_gt0.
  by apply: mulr_ilt1; rewrite ?(ltW t2) // ltr_subl_addr ltr_addl.
- rewrite -scalemxAl mxE -/h -/r.
  have -> : (h^T *m h) 0 0 = norm2 h.
    by rewrite -/(dot h h) dotE; apply: eq_bigr => i _; rewrite real_normK // expr2.
  have e0 : 0 < ex (- r * norm2 h) by apply: P; rewrite rpredM // rpredN gtr0_real.
  move: e0; set E := ex _ => e0.
  by rewrite !mulNr oppr_lt0; do 3 (apply: mulr_gt0 => //); rewrite ltr0n.
Qed.
(** Refuted for the Gaussian kernel: its gradient has the wrong sign.  Here exp is any function that is positive and
    increasing on real numbers. *)
Theorem C47_rbf_refuted g (d y : 'cV[C]_n) : (forall u, u \is Num.real -> 0 < ex u) ->
  (forall u v, u \is Num.real -> v \is Num.real -> u < v -> ex u < ex v) ->
  0 < gamma_of n g -> realm d -> realm y -> d != y ->
  exists2 r, gradient ex (KRbf g) d y = Ok r &
    ~ derivative_at (fun y' => (kernel ex (KRbf g) d y')%:M : 'cV[C]_1) y r.
Proof.
move=> P M g0 Rd Ry Ne; eexists; first exact: erefl.
move=> H; apply: (rbf_line P M g0 Rd Ry Ne erefl).
by apply: derivative_ext (H (d - y) 0) => t _; rewrite mxE.
Qed.
End Gradients.

(** ** The linear kernel: the model is its linear part, about every fixed point *)
Section LinearKernel.
Variables (C : numClosedFieldType) (np : numpy C) (n : nat) (ex : C -> C).
Theorem C47_linear_kernel (d : lando C n) shape fp d' : analyze_fixed_point np ex KLinear d shape fp true = (d', Ok tt) ->
  exists A : 'M[C]_n, [/\ linear d' = Ok (Some A), bias d' = Ok (A *m fp),
    forall a (X : 'M[C]_(n, a)), f ex KLinear d' shape X = Ok (A *m X) &
    forall a (X : 'M[C]_(n, a)), nonlinear ex KLinear d' shape X = Ok 0].
Proof.
move=> /analyzeP [o [l [G [Eo Es EG El [Eo' Esc Esh [Ell EA Ef]]]]]].
have HG a (X : 'M[C]_(n, a)) : model_of ex KLinear o (la_scale d) X = lo_W o *m G *m X.
  move: EG; rewrite /scaled_gradient /= => -[<-]; rewrite /model_of -mulmxA; congr (_ *m _); apply/matrixP => i j.
  rewrite mxE /= dotE mxE; apply: eq_bigr => v _; rewrite !mxE; by rewrite -mulrA [X in _ * X]mulrC.
exists (lo_W o *m G); split.
- by rewrite /linear Ell EA.
- by rewrite /bias Ell Ef HG.
- by move=> a X; rewrite /f Eo' Esh -Es eqxx Esc HG.
move=> a X; rewrite /nonlinear Ell Ef Eo' Esh -Es eqxx Esc EG /= /f Eo' Esh -Es eqxx Esc /= !HG; congr Ok.
have cE (v : 'cV[C]_n) (Y : 'M[C]_(n, a)) : add_col v Y = v *m const_mx 1 + Y.
  by apply/matrixP => i j; rewrite !mxE big_ord1 mxE mulr1 addrC.
by rewrite !cE mulmxDr mulNmx mulmxA addKr subrr.
Qed.
End LinearKernel.

(** ** The modes and eigenvalues of the first analysis *)
Section Modes.
Variables (C : numClosedFieldType) (np : numpy C) (n : nat) (ex : C -> C) (ks : kspec C n) (cplx : bool).
Hypothesis SV : forall a b (M : 'M[C]_(a, b)), svd_ok np M.
Hypothesis EG : forall r (M : 'M[C]_r), eig_ok np M.

Lemma keptP r (w : 'rV[C]_r) j : (j \in kept_eigs w) = ((10%:R ^+ 16)^-1 < `|w 0 j|).
Proof. by rewrite /kept_eigs mem_sort mem_filter mem_enum andbT. Qed.
Lemma pick_mul a b r (A : 'M[C]_(a, b)) (V : 'M[C]_(b, r)) l : A *m pick_cols V l = pick_cols (A *m V) l.
Proof. by apply/matrixP => i j; rewrite !mxE; apply: eq_bigr => v _; rewrite mxE. Qed.
Lemma pick_diag a r (V : 'M[C]_(a, r)) (w : 'rV[C]_r) l : pick_cols (V *m diag_mx w) l = pick_cols V l *m diag_mx (pick_cols w l).
Proof. by rewrite !mul_mx_diag; apply/matrixP => i j; rewrite !mxE. Qed.

(** the gradients of the kernel at the fixed point are real, and svd_rank keeps every non-zero singular value *)
Definition full_rank (d : lando C n) (fp : 'cV[C]_n) : Prop := forall o G, la_op d = Some o ->
  scaled_gradient ex ks o (rescaled (la_scale d) fp) (factors (la_scale d)) = Ok G ->
  realm G /\ let sv := compute_svd np G^T (lc_rank (la_cfg d)) in untruncated G^T (sv_U sv) (sv_s sv) (sv_V sv).

Lemma first_px d o fp w d' : la_b d = None -> la_px d = None -> analyze_at np ex ks d o fp w = (d', Ok tt) ->
  exists l b, [/\ la_lin d' = Some l, la_b d' = Some (existT _ (li_k l) b) & la_px d' = None].
Proof.
move=> Eb Ep; rewrite /analyze_at; case: (linear_operator _ _ _ _ _ _ _) => [[l A]|e]; last by [].
rewrite /seen /shown /= Eb Ep; case: (la_snap d) => [[N Sn]|] //.
by case: (Model_EDMD.edmd_amplitudes _ _ _ _ _) => [b|e'] // [<-]; exists l, b.
Qed.
Lemma kept_sorted r (w : 'rV[C]_r) (i j : 'I_(size (kept_eigs w))) : (i <= j)%N ->
  `|pick_cols w (kept_eigs w) 0 j| <= `|pick_cols w (kept_eigs w) 0 i|.
Proof.
move=> Hij; have x0 : 'I_r := tnth (in_tuple (kept_eigs w)) i; rewrite !mxE !(tnth_nth x0) /=.
have T : total (fun a b => `|w 0 b| <= `|w 0 a|) by move=> a b; apply: real_leVge; exact: normr_real.
have Tr : transitive (fun a b => `|w 0 b| <= `|w 0 a|) by move=> a b e H1 H2; apply: le_trans H2 H1.
have R : reflexive (fun a b => `|w 0 b| <= `|w 0 a|) by move=> a.
have Srt : sorted (fun a b => `|w 0 b| <= `|w 0 a|) (kept_eigs w) := sort_sorted T _.
by apply: (sorted_leq_nth Tr R x0 Srt) => //; rewrite inE ltn_ord.
Qed.

Lemma lin_facts rk o fp sc G l A : scaled_gradient ex ks o fp sc = Ok G -> realm G ->
  (let sv := compute_svd np G^T rk in untruncated G^T (sv_U sv) (sv_s sv) (sv_V sv)) ->
  linear_operator np ex ks rk o fp sc = Ok (l, A) ->
  [/\ A *m li_modes l = li_modes l *m diag_mx (li_eigs l),
      forall i j : 'I_(li_k l), (i <= j)%N -> `|li_eigs l 0 j| <= `|li_eigs l 0 i|,
      forall j, (10%:R ^+ 16)^-1 < `|li_eigs l 0 j|,
      forall j, exists i, li_modes l i j != 0 &
      (np_eig np (li_At l)).2 \in unitmx -> forall (e : C) (v : 'cV[C]_n), v != 0 -> A *m v = e *: v ->
        (10%:R ^+ 16)^-1 < `|e| -> exists j, li_eigs l 0 j = e].
Proof.
move=> EGr RG; rewrite /linear_operator EGr /=.
set sv := compute_svd _ _ _ => -[XE s0]; set At := (adj _ *m _ *m _); case Eg: (np_eig np At) => [w V] [<- <-] /=.
have [HV Vn] := EG At; rewrite Eg /= in HV Vn; set kl := kept_eigs w.
have := @compute_svd_facts C np _ _ G^T rk (SV G^T); rewrite -/sv => -[UU VV _ _ sp].
have GE : G = sv_V sv *m diag_mx (sv_s sv) *m adj (sv_U sv).
  have -> : G = adj G^T by rewrite realm_adj ?trmxK //; exact: realm_tr.
  rewrite {1}XE !adjM adjK adj_diag mulmxA; congr (_ *m diag_mx _ *m _); apply/matrixP => i j.
  by rewrite mxE ord1 conj_Creal // ger0_real.
set B := lo_W o *m sv_V sv *m diag_mx (sv_s sv).
have AE : lo_W o *m G = B *m adj (sv_U sv) by rewrite {1}GE !mulmxA.
have AtE : At = adj (sv_U sv) *m B by rewrite /At AE !mulmxA -mulmxA UU mulmx1.
move: AE AtE; clearbody B => AE AtE.
have e0 j : (10%:R ^+ 16)^-1 < `|pick_cols w kl 0 j|.
  by rewrite mxE -keptP mem_tnth.
have en j : pick_cols w kl 0 j != 0.
  by rewrite -normr_gt0; apply: lt_trans (e0 j); rewrite invr_gt0 exprn_gt0 ?ltr0n.
have AV : At *m pick_cols V kl = pick_cols V kl *m diag_mx (pick_cols w kl) by rewrite pick_mul HV pick_diag.
have Bv : B *m pick_cols V kl *m diag_mx (recip (pick_cols w kl)) *m diag_mx (pick_cols w kl) = B *m pick_cols V kl.
  by rewrite -[LHS]mulmxA diag_mxC diag_recip // mulmx1.
split=> //.
- by rewrite Bv AE !mulmxA -(mulmxA B) -AtE -(mulmxA B) AV mulmxA -[LHS]mulmxA diag_recip // mulmx1.
- exact: kept_sorted.
- move=> j; case: (pickP (fun i => (B *m pick_cols V kl *m diag_mx (recip (pick_cols w kl))) i j != 0)) => [i Hi|H]; first by exists i.
  have c0 : col j (B *m pick_cols V kl) = 0.
    rewrite -Bv mul_mx_diag; apply/matrixP => i i'; have /negbFE /eqP E := H i; by rewrite [LHS]mxE mxE E mul0r mxE.
  have : At *m col j (pick_cols V kl) = 0 by rewrite AtE -mulmxA colE [B *m _]mulmxA -colE c0 mulmx0.
  rewrite colE mulmxA AV mul_mx_diag -colE => /matrixP Z.
  have := Vn (tnth (in_tuple kl) j); rewrite big1 ?(rwP eqP) 1?eq_sym ?oner_eq0 // => i _.
  have := Z i 0; rewrite !mxE => /eqP; rewrite mulf_eq0 => /orP [/eqP->|]; first by rewrite normr0 expr0n.
  by have := en j; rewrite mxE => /negbTE ->.
- move=> U e v v0; rewrite AE -mulmxA => Av Le; set y := adj (sv_U sv) *m v in Av.
  have en0 : e != 0 by rewrite -normr_gt0; apply: lt_trans Le; rewrite invr_gt0 exprn_gt0 ?ltr0n.
  have y0 : y != 0.
    apply/eqP => E; move: Av; rewrite E mulmx0 => /esym /eqP; by rewrite scaler_eq0 (negbTE en0) (negbTE v0).
  have Ay : At *m y = e *: y by rewrite AtE -mulmxA Av -scalemxAr.
  rewrite Eg /= in U; set z := invmx V *m y; have yE : y = V *m z by rewrite mulKVmx.
  clearbody z.
  have Dz : diag_mx w *m z = e *: z.
    have : V *m (diag_mx w *m z) = V *m (e *: z) by rewrite mulmxA -HV -mulmxA -yE Ay yE -scalemxAr.
    by move/(congr1 (mulmx (invmx V))); rewrite !mulKmx.
  have [j Hj] : exists j, z j 0 != 0.
    case: (pickP (fun j => z j 0 != 0)) => [j Hj|H]; first by exists j.
    move: y0; rewrite yE; have -> : z = 0 by apply/matrixP => i i'; rewrite ord1 [RHS]mxE; have /negbFE /eqP := H i.
    by rewrite mulmx0 eqxx.
  have Ew : w 0 j = e.
    by move/matrixP/(_ j 0): Dz; rewrite mul_diag_mx !mxE => /(mulIf Hj).
  have Hk : j \in kl by rewrite keptP Ew.
  have Li : (index j kl < size kl)%N by rewrite index_mem.
  by exists (Ordinal Li); rewrite mxE (tnth_nth j) /= nth_index.
Qed.

(** After the first analysis the modes and eigenvalues shown are eigenvectors and eigenvalues of the linear operator, in
    decreasing order of modulus, not zero; and, if np.linalg.eig gives a basis, every eigenvalue of the operator of modulus
    more than 1e-16 is shown. *)
Theorem C47_modes sh d0 shape c d fp d' : call_fit np ex ks cplx sh d0 shape c = (d, Ok tt) ->
  analyze_fixed_point np ex ks d shape fp true = (d', Ok tt) -> full_rank d fp ->
  exists (A : 'M[C]_n) p, [/\ linear d' = Ok (Some A), (shown d').2 = Ok (Some p),
    A *m px_modes p = px_modes p *m diag_mx (px_eigs p),
    forall i j : 'I_(px_k p), (i <= j)%N -> `|px_eigs p 0 j| <= `|px_eigs p 0 i| &
    (forall j, (10%:R ^+ 16)^-1 < `|px_eigs p 0 j| /\ exists i, px_modes p i j != 0) /\
    ((forall l, la_lin d' = Some l -> (np_eig np (li_At l)).2 \in unitmx) -> forall (e : C) (v : 'cV[C]_n),
      v != 0 -> A *m v = e *: v -> (10%:R ^+ 16)^-1 < `|e| -> exists j, px_eigs p 0 j = e)].
Proof.
move=> Ef Ea FR; have [_ _ _ Eb Ep] := call_fit_keeps Ef.
have [o [l [G [Eo Es EGr El [Eo' Esc Esh [Ell EA Efx]]]]]] := analyzeP Ea.
have [l' [b [El' Eb' Ep']]] : exists l b, [/\ la_lin d' = Some l, la_b d' = Some (existT _ (li_k l) b) & la_px d' = None].
  by move: Ea; rewrite /analyze_fixed_point Eo Es eqxx; exact: first_px.
move: El'; rewrite Ell => -[E]; rewrite -{}E in b Eb'.
exists (lo_W o *m G), (Px (li_modes l) (li_eigs l) b).
have Sh : (shown d').2 = Ok (Some (Px (li_modes l) (li_eigs l) b)).
  by rewrite /shown Ell Ep' Eb'; case: eqP => // e; rewrite /= castmx_id.
have [RG Un] := FR _ _ Eo EGr; have [H1 H2 H3 H4 H5] := lin_facts EGr RG Un El.
split=> //; first by rewrite /linear Ell EA.
by split=> [j|U]; [split; [exact: H3 | exact: H4] | apply: H5; exact: U].
Qed.
End Modes.

(** ** One pair of snapshots *)
Section OnePair.
Variables (C : numClosedFieldType) (np : numpy C) (n : nat) (ex : C -> C) (ks : kspec C n) (cplx : bool).
Hypothesis LS : forall a b (M : 'M[C]_(a, b)) y, lstsq_ok np M y.
Definition pair_cfg : lcfg C := LCfg (Model_Utils.RInt (BinNums.Zpos BinNums.xH)) 0 (OptBool false) 0 false false true.
Definition pair_lando : lando C n := lando_init pair_cfg (RsNum n 1).
Lemma scale1 a (X : 'M[C]_(n, a)) : rescaled (RsNum n 1) X = X.
Proof. by apply/matrixP => i j; rewrite !mxE mulr1. Qed.
(** the fit, and the analysis about any state *)
Lemma pair_fit (x y : 'cV[C]_n) : kernel ex ks x x != 0 -> exists d o,
  [/\ call_fit np ex ks cplx (fun N => id) pair_lando [:: n] (Pair x y) = (d, Ok tt), la_op d = Some o, la_scale d = RsNum n 1,
      la_cfg d = pair_cfg & exists P Q, o = @LOp C n 1 x P Q ((kernel ex ks x x)^-1 *: y)].
Proof.
move=> k0; rewrite /= /fit_xy /fit_pair /= /compute_tlsq /= scale1.
rewrite /compute_operator /= enum_ordSl /=; have -> : enum 'I_0 = [::] by apply/nilP; rewrite /nilp size_enum_ord.
rewrite /= !col_id; eexists; eexists; split; [exact: erefl | exact: erefl | exact: erefl | exact: erefl |].
rewrite /weigh /begin_with /=; do 2 eexists; congr LOp.
have Ek : kmat ex ks x x = (kernel ex ks x x)%:M by apply/matrixP => i j; rewrite !mxE !ord1 mulr1n !col_id.
have U : ((kernel ex ks x x)%:M : 'M[C]_1) \in unitmx by rewrite unitmxE det_scalar expr1 unitfE.
rewrite Ek tr_scalar_mx; have := @lstsq_mx_unit C np LS 1 n _ y^T U; rewrite mul_scalar_mx => H.
apply: trmx_inj; rewrite trmxK linearZ /= -[in RHS]H scalerA mulVf // scale1r //.
Qed.
End OnePair.

Section Succeeds.
Variables (C : numClosedFieldType) (np : numpy C) (n : nat) (ex : C -> C) (ks : kspec C n) (cplx : bool).
(** With the default option opt, the first analysis after a fit succeeds about every state, unless a custom kernel comes
    without a gradient: then it raises ValueError. *)
Theorem C47_analysis sh d0 shape c d fp w : call_fit np ex ks cplx sh d0 shape c = (d, Ok tt) -> (0 < count c)%N ->
  lc_opt (la_cfg d0) = OptBool false ->
  (if ks is KCustom _ None then exists d', analyze_fixed_point np ex ks d shape fp w = (d', Err ValueError)
   else exists d', analyze_fixed_point np ex ks d shape fp w = (d', Ok tt)).
Proof.
move=> E N0 Op; have [o [Eo Ec _ Esh _]] := call_fitP E; have [_ _ _ Eb Ep] := call_fit_keeps E.
have [N [S [ES NS]]] : exists N S, la_snap d = Some (existT _ N S) /\ (0 < N)%N.
  move: E; rewrite /call_fit; case: (c) N0 => [N M|N X Y] /= N0; rewrite /fit /fit_xy /fit_pair; case: (check_rescale _ _) => [sc|] //;
    by case: (compute_operator _ _ _ _ _ _ _ _ _ _ _ _) => [o'|] // [<-]; eexists; eexists; split; [exact: erefl|].
rewrite /analyze_fixed_point Eo Esh eqxx.
suff G : (forall G, gmat ex ks (lo_D o) (rescaled (la_scale d) fp) = Ok G -> exists d', analyze_at np ex ks d o fp w = (d', Ok tt)) /\
  (gmat ex ks (lo_D o) (rescaled (la_scale d) fp) = Err ValueError -> exists d', analyze_at np ex ks d o fp w = (d', Err ValueError)).
  case: G => G1 G2; move: G1 G2; rewrite /gmat; case: (ks) => [k0 [g0|]||ga ca da|ga] G1 G2;
    by [apply: G1; exact: erefl | apply: G2; exact: erefl].
split=> [G|] EG; rewrite /analyze_at /linear_operator /scaled_gradient EG /=; last by eexists.
have Am q (Phi : 'M[C]_(n, q)) e x : Model_EDMD.edmd_amplitudes np (lc_opt (la_cfg d)) S Phi e <> Err x.
  by rewrite Ec Op /Model_EDMD.edmd_amplitudes /= insubT.
case: (np_eig _ _) => wv V; rewrite ES /seen /shown /= Ep Eb.
by case E': (Model_EDMD.edmd_amplitudes _ _ _ _ _) => [b|x]; [eexists | case: (Am _ _ _ _ E')].
Qed.
End Succeeds.

(** Refuted for the Gaussian kernel: the linear operator of the analysis is not the derivative of the model.  Here for the
    model fitted on one pair, about any other real state. *)
Section Rbf.
Variables (C : numClosedFieldType) (np : numpy C) (n : nat) (ex : C -> C) (cplx : bool).
Hypothesis LS : forall a b (M : 'M[C]_(a, b)) y, lstsq_ok np M y.
Theorem C47_rbf_model_refuted g (x y fp : 'cV[C]_n) : (forall u, u \is Num.real -> 0 < ex u) ->
  (forall u v, u \is Num.real -> v \is Num.real -> u < v -> ex u < ex v) ->
  0 < gamma_of n g -> realm x -> realm fp -> x != fp -> y != 0 ->
  exists d d' (A : 'M[C]_n) F, [/\ call_fit np ex (KRbf g) cplx (fun N => id) (pair_lando C n) [:: n] (Pair x y) = (d, Ok tt),
    analyze_fixed_point np ex (KRbf g) d [:: n] fp true = (d', Ok tt), linear d' = Ok (Some A),
    forall z, f ex (KRbf g) d' [:: n] z = Ok (F z) & ~ derivative_at F fp A].
Proof.
move=> P M g0 Rx Rf Ne y0.
have k0 : kernel ex (KRbf g) x x != 0.
  rewrite /= subrr; have -> : norm2 (0 : 'cV[C]_n) = 0 by rewrite /norm2 big1 // => i _; rewrite mxE normr0 expr0n.
  by rewrite mulr0; apply: lt0r_neq0; apply: P; exact: real0.
have [d [o [Ef Eo Esc Ec [P' [Q Eop]]]]] := pair_fit cplx LS y k0.
have [d' Ea] := C47_analysis fp true Ef (ltn0Sn 0) erefl.
have [o' [l [G [Eo' Es EG El [Eod Escd Eshd [Ell EA Efx]]]]]] := analyzeP Ea.
move: Eo'; rewrite Eo => -[E]; rewrite -{}E Eop in G EG El Eod EA Efx.
exists d, d', (lo_W (LOp x P' Q ((kernel ex (KRbf g) x x)^-1 *: y)) *m G), (fun z => model_of ex (KRbf g) (LOp x P' Q ((kernel ex (KRbf g) x x)^-1 *: y)) (RsNum n 1) z).
split=> //; first by rewrite /linear Ell EA.
  by move=> z; rewrite /f Eod Eshd -Es eqxx Escd Esc.
set kk := kernel ex (KRbf g) x x in k0 *.
have [i Hi] : exists i, y i 0 != 0.
  case: (pickP (fun i => y i 0 != 0)) => [i Hi|H]; first by exists i.
  by move: y0 => /eqP []; apply/matrixP => i j; rewrite ord1 [RHS]mxE; have /negbFE /eqP := H i.
move=> /(_ (x - fp) i) H; have [r Er] : exists r, gradient ex (KRbf g) x fp = Ok r by eexists.
apply: (rbf_line P M g0 Rx Rf Ne Er).
have kn : kk / y i 0 != 0 by rewrite mulf_neq0 ?invr_eq0.
have := derivativeZ (kk / y i 0) H.
have -> : kk / y i 0 * (lo_W (LOp x P' Q (kk^-1 *: y)) *m G *m (x - fp)) i 0 = (r *m (x - fp)) 0 0.
  have -> : G = r.
    move: EG; rewrite Esc /scaled_gradient /= => -[<-]; case: Er => <-; apply/matrixP => a b.
    by rewrite ord1 [LHS]mxE [X in X * _]mxE /= scale1 col_id [const_mx 1 _ _]mxE mulr1.
  by rewrite -mulmxA mxE big_ord1 [(_ *: y) i 0]mxE mulrA mulrACA divff // mulVf // mul1r mul1r.
apply: derivative_ext => t _; rewrite mxE big_ord1 [(_ *: y) i 0]mxE [kmat _ _ _ _ _ _]mxE scale1 !col_id.
by rewrite mulrA mulrACA divff // mulVf // mul1r mul1r.
Qed.
End Rbf.

(** ** A concrete case: the plane, one pair x -> y with x the first unit vector *)
Section Case.
Variable C : numClosedFieldType.
Local Notation np := (ideal C).
Let x : 'cV[C]_2 := delta_mx 0 0.
Lemma square_iso a r (V : 'M[C]_(a, r)) : r = a -> adj V *m V = 1%:M -> V *m adj V = 1%:M.
Proof. by move=> E; case: _ / E V => V; exact: mulmx1C. Qed.
Lemma x_real : realm x. Proof. by move=> i j; rewrite mxE; case: (_ && _); rewrite ?real1 ?real0. Qed.
Lemma x_neq0 : x != 0.
Proof. by apply/eqP => /matrixP /(_ 0 0); rewrite !mxE eqxx => /eqP; rewrite oner_eq0. Qed.
Lemma x_dot : dot x x = 1.
Proof. by rewrite dotE big_ord_recl big_ord1 !mxE /= mulr1 mulr0 addr0. Qed.

Example C47_case ex (y fp : 'cV[C]_2) : exists d d',
  [/\ call_fit np ex KLinear false (fun N => id) (pair_lando C 2) [:: 2%N] (Pair x y) = (d, Ok tt),
      analyze_fixed_point np ex KLinear d [:: 2%N] fp true = (d', Ok tt), full_rank np ex KLinear d fp &
      linear d' = Ok (Some (y *m x^T))].
Proof.
have [Sv [_ [Ls _]]] := ideal_contracts C.
have k0 : kernel ex KLinear x x != 0 by rewrite /= x_dot oner_eq0.
have [d [o [Ef Eo Esc Ec [P' [Q Eop]]]]] := pair_fit false Ls y k0.
have [d' Ea] := C47_analysis fp true Ef (ltn0Sn 0) erefl; exists d, d'; split=> //.
- move=> o' G Eo'; have E : o' = LOp x P' Q ((kernel ex KLinear x x)^-1 *: y) by move: Eo'; rewrite Eo Eop => -[].
  subst o'; rewrite Esc Ec /scaled_gradient /= => -[<-].
  have -> : \matrix_(i < 1, j < 2) ((\matrix_(i0, j0) (col i0 x)^T 0 j0) i j * (const_mx 1 : 'cV[C]_2) j 0) = x^T.
    by apply/matrixP => i j; rewrite !mxE mulr1 ord1.
  split; first exact: realm_tr x_real.
  rewrite trmxK; set sv := compute_svd _ _ _; rewrite /=.
  have [UU VV XV _ sp] := @compute_svd_facts C np _ _ x (Model_Utils.RInt (BinNums.Zpos BinNums.xH)) (Sv _ _ x).
  have r1 : sv_r sv = 1%N.
    by rewrite /sv compute_svdE /= /ideal_rank /= inordK.
  have XE : x = sv_U sv *m diag_mx (sv_s sv) *m adj (sv_V sv) by rewrite -XV -mulmxA (square_iso r1 VV) mulmx1.
  split=> // j; apply/eqP => s0; move: x_neq0; rewrite {1}XE; suff -> : diag_mx (sv_s sv) = 0 by rewrite mulmx0 mul0mx eqxx.
  apply/matrixP => a b; rewrite !mxE; suff -> : a = j by rewrite s0 mul0rn.
  by apply: val_inj; case: (a) (j) => [a' Ha] [j' Hj] /=; move: Ha Hj; rewrite r1; case: a' j' => [|?] [|?].
- have [A [EA _ Hf _]] := C47_linear_kernel Ea; rewrite EA; congr (Ok (Some _)).
  have [c [A' [_ _ _ Ff _]]] := C47_parts Ea; have := Hf _ 1%:M.
  have [_ [_ _ _ Esh _]] := call_fitP Ef.
  rewrite Ff /f Eo Esh eqxx Eop Esc mulmx1 => -[<-]; rewrite /model_of /= x_dot invr1 scale1r scale1; congr (_ *m _).
  by apply/matrixP => i j; rewrite !mxE /= ord1 col_id dotE (bigD1 j) //= big1 ?addr0 => [|u Hu]; rewrite !mxE ?eqxx ?mulr1 // (negbTE Hu) mulr0.
Qed.

(** a positive increasing function *)
Definition rise (u : C) : C := if 0 <= u then 1 + u else (1 - u)^-1.
Example C47_rise : (forall u, u \is Num.real -> 0 < rise u) /\
  (forall u v, u \is Num.real -> v \is Num.real -> u < v -> rise u < rise v).
Proof.
have G (u : C) : u \is Num.real -> ~~ (0 <= u) -> 1 < 1 - u.
  by move=> R; rewrite real_leNgt ?real0 // negbK => L; rewrite ltr_addl oppr_gt0.
split=> [u R|u v Ru Rv L]; rewrite /rise.
  case: ifP => H; first by rewrite ltr_paddr ?ltr01.
  by rewrite invr_gt0; apply: lt_trans (ltr01) (G u R (negbT H)).
case: ifP => Hu; case: ifP => Hv.
- by rewrite ltr_add2l.
- by move: Hv; rewrite (le_trans Hu (ltW L)).
- apply: (@lt_le_trans _ _ 1); last by rewrite ler_addl.
  by rewrite invf_lt1 ?G ?Hu //; apply: lt_trans (ltr01) (G u Ru (negbT Hu)).
have P (w : C) : w \is Num.real -> ~~ (0 <= w) -> 0 < 1 - w by move=> R H; apply: lt_trans (ltr01) (G w R H).
by rewrite ltf_pinv ?inE ?posrE ?P ?Hu ?Hv // ltr_add2l ltr_opp2.
Qed.
End Case.
Print Assumptions C47_parts.
Print Assumptions C47_derivative.
Print Assumptions C47_gradients.
Print Assumptions C47_custom_gradient.
Print Assumptions C47_rbf_refuted.
Print Assumptions C47_linear_kernel.
Print Assumptions C47_modes.
Print Assumptions C47_analysis.
Print Assumptions C47_rbf_model_refuted.
Print Assumptions C47_case.
