(** * Proofs about trials, fit, fit_econ and forecast of Model_BOP.v *)
From Coq Require Import QArith.
From mathcomp Require Import all_ssreflect all_fingroup all_algebra.
From Verif Require Import Py LinAlg Model_Operator Spec_Operator Proofs_Operator Model_BOP Spec_BOP.
From Verif Require Import Proofs_BOPVar Proofs_BOPJac Proofs_BOPBag.
From Verif Require Model_Utils.
Set Implicit Arguments. Unset Strict Implicit. Unset Printing Implicit Defensive.
Import Order.TTheory GRing.Theory Num.Theory.
Local Open Scope ring_scope.

Section Bop.
Variable C : numClosedFieldType.
Variables (np : numpy C) (x : ext C).

(** ** Normalisation *)
Section Norm.
Variables (n r : nat) (w : 'M[C]_(n, r)).
Let b := col_norms w.
Lemma normsE j : b 0 j = sqrtC (\sum_i `|w i j| ^+ 2). Proof. by rewrite mxE. Qed.
Lemma norms_ge0 j : 0 <= b 0 j.
Proof. by rewrite normsE sqrtC_ge0 sumr_ge0 // => i _; rewrite exprn_ge0. Qed.
Lemma norms_eq0 j i : b 0 j = 0 -> w i j = 0.
Proof.
rewrite normsE => /eqP; rewrite sqrtC_eq0 psumr_eq0; last by move=> k _; rewrite exprn_ge0.
by move=> /allP /(_ i); rewrite mem_index_enum /= => /(_ isT); rewrite expf_eq0 /= normr_eq0 => /eqP.
Qed.

Lemma foldr_maxP (l : seq C) : all (fun a => 0 <= a) l ->
  [/\ 0 <= foldr (@Model_BOP.maxC C) 0 l, (foldr (@Model_BOP.maxC C) 0 l \in l) || (l == [::]) & all (fun a => a <= foldr (@Model_BOP.maxC C) 0 l) l].
Proof.
elim: l=> [|a l IH] /=; first by [].
move=> /andP [A0 /IH [H1 H2 H3]]; rewrite /Model_BOP.maxC.
have [L|L] := real_ltP (ger0_real A0) (ger0_real H1).
  split=> //; rewrite ?(ltW L) // inE; case/orP: H2 => [->|/eqP E]; first by rewrite orbT.
  by move: L; rewrite E /= le_gtF.
split=> //; rewrite ?inE ?eqxx ?lexx //=.
by apply/allP=> c /(allP H3) /le_trans; apply.
Qed.

Lemma feps_gt0 : 0 < feps C. Proof. by rewrite /feps invr_gt0 exprn_gt0 ?ltr0n. Qed.

Lemma tinyP j : reflect (exists k, b 0 j < 10%:R * feps C * b 0 k) (tiny_col b j).
Proof.
have F : 0 < 10%:R * feps C by rewrite mulr_gt0 ?ltr0n ?feps_gt0.
rewrite /tiny_col ger0_norm ?norms_ge0 // /row_max.
have [|H1 H2 H3] := @foldr_maxP [seq b 0 j | j <- enum 'I_r].
  by apply/allP=> a /mapP [k _ ->]; exact: norms_ge0.
apply: (iffP idP)=> [L|[k L]].
  case/orP: H2=> [/mapP [k _ E]|/eqP E]; first by exists k; rewrite -E.
  by have : b 0 j \in [seq b 0 j | j <- enum 'I_r]; [rewrite map_f ?mem_enum|rewrite E].
apply: lt_le_trans L _; rewrite ler_pmul2l //; apply: (allP H3); by rewrite map_f ?mem_enum.
Qed.

Definition drop_tiny : 'M[C]_(n, r) := \matrix_(i, j) (if tiny_col b j then 0 else w i j).

Lemma unit_amps : unit_modes w *m diag_mx (mode_amps w) = drop_tiny.
Proof.
apply/matrixP=> i j; rewrite mul_mx_diag !mxE -/b; case: ifP=> _; first by rewrite mul0r.
rewrite -(normsE j); have [E|N] := eqVneq (b 0 j) 0; last by rewrite mulfVK.
by rewrite E mulr0 (norms_eq0 i E).
Qed.

Lemma unit_norm j : w != 0 -> ~~ tiny_col b j -> \sum_i `|unit_modes w i j| ^+ 2 = 1.
Proof.
move=> W0 T; have N : b 0 j != 0.
  apply/negP=> /eqP E; case/negP: T; apply/tinyP.
  have /existsP [i /existsP [k Nk]] : [exists i, [exists k, w i k != 0]].
    apply: contraR W0; rewrite negb_exists=> /forallP A; apply/eqP/matrixP=> i k.
    by have := A i; rewrite negb_exists=> /forallP /(_ k) /negPn /eqP ->; rewrite mxE.
  exists k; rewrite E mulr_gt0 ?mulr_gt0 ?ltr0n ?feps_gt0 // lt_def norms_ge0 andbT.
  by apply/negP=> /eqP E0; rewrite (norms_eq0 i E0) eqxx in Nk.
have S2 : \sum_i `|w i j| ^+ 2 = b 0 j ^+ 2 by rewrite normsE sqrtCK.
have E i : `|unit_modes w i j| ^+ 2 = `|w i j| ^+ 2 / b 0 j ^+ 2.
  rewrite [unit_modes _ _ _]mxE -/b (negbTE T) normrM normfV (ger0_norm (norms_ge0 j)) exprMn exprVn //.
rewrite (eq_bigr _ (fun i _ => E i)) -mulr_suml S2 divff // expf_neq0 //.
Qed.
Lemma unit_zero j i : tiny_col b j -> unit_modes w i j = 0.
Proof. by move=> T; rewrite mxE -/b T. Qed.
Lemma amps_ge0 j : 0 <= mode_amps w 0 j.
Proof. by rewrite mxE -/b; case: ifP=> // _; exact: norms_ge0. Qed.
Lemma no_tiny : (forall j k, 10%:R * feps C * b 0 k <= b 0 j) -> drop_tiny = w.
Proof.
move=> H; apply/matrixP=> i j; rewrite mxE; case: tinyP=> // -[k L].
by have := lt_le_trans L (H j k); rewrite ltxx.
Qed.
End Norm.

(** ** Trials *)
Lemma trialP (cfg : bop_cfg C) o n q (P : 'M[C]_(n, q)) M (H : 'M[C]_(M, data_cols cfg n q)) t r (al0 : 'rV[C]_r) u :
  single_trial np x o P H t al0 = Ok u ->
  exists2 v, variable_projection np x o (bc_con cfg) (prox_unprojected cfg) H t al0 = Ok v &
    [/\ to_e u = vp_alpha v, to_b u = mode_amps (vp_B v)^T, to_conv u = vp_conv v,
        (to_w u, to_At u) = lift_modes np P (vp_alpha v) (unit_modes (vp_B v)^T) &
        to_A u = if bc_A cfg then Some (propagator np (to_w u) (to_e u)) else None].
Proof.
rewrite /single_trial; case E : (variable_projection _ _ _ _ _ _ _ _)=> [v|//] /=.
by case L : (lift_modes _ _ _ _)=> [W At] [<-]; exists v.
Qed.

Lemma lift_proj (cfg : bop_cfg C) n q r (P : 'M[C]_(n, q)) (e : 'rV[C]_r) (B : 'M[C]_(r, data_cols cfg n q)) (E : bc_proj cfg) :
  bc_prox cfg = None ->
  let B' := castmx (erefl, data_cols_proj n q E) B in
  lift_modes np P e (unit_modes B^T) = (P *m unit_modes B'^T, propagator np (unit_modes B'^T) e).
Proof.
move: B (data_cols_proj n q E); rewrite /lift_modes /data_cols; case: (bc_proj cfg) E=> //= _ B e1 ->.
by rewrite castmx_id.
Qed.

Lemma exp_rowsE r (e : 'rV[C]_r) k (t : 'rV[C]_k) : exp_rows x e t = (exp_mx x t e)^T.
Proof. by apply/matrixP=> i j; rewrite !mxE mulrC. Qed.

(** the prediction from the modes and amplitudes of a coefficient matrix *)
Lemma predictE n q r (P : 'M[C]_(n, q)) (B : 'M[C]_(r, q)) (e : 'rV[C]_r) k (t : 'rV[C]_k) :
  predict x (P *m unit_modes B^T) e (mode_amps B^T) t = P *m (exp_mx x t e *m (drop_tiny B^T)^T)^T.
Proof. by rewrite /predict trmx_mul trmxK -unit_amps exp_rowsE ?mulmxA. Qed.

(** ** A start of error zero is kept, and not called converged *)
Section Zero.
Variables (o : vopts C) (con : constr C) (M IS : nat) (H : 'M[C]_(M, IS)) (t : 'rV[C]_M).
Hypothesis norm0 : forall a b (A : 'M[C]_(a, b)), norm_ok np A.

Lemma err_ge0 r (c : 'rV[C]_r * 'M[C]_(r, IS)) : 0 <= model_error np x H t c.
Proof. by rewrite /model_error mulr_ge0 ?invr_ge0 // (proj1 (norm0 _)). Qed.
Lemma norm_zero a b : np_norm np (0 : 'M[C]_(a, b)) = 0.
Proof.
have [_] := norm0 (0 : 'M[C]_(a, b)); rewrite /frob2 => /eqP; rewrite big1 ?expf_eq0 /=; first by move/eqP.
by move=> i _; rewrite big1 // => j _; rewrite mxE normr0 expr0n.
Qed.

Lemma start_exact prox r (al : 'rV[C]_r) v : push x con al = Ok al ->
  H = exp_mx x t al *m compute_B np x prox H t al ->
  variable_projection np x o con prox H t al = Ok v -> v = VpOut al (compute_B np x prox H t al) false.
Proof.
move=> Pu E; rewrite /variable_projection Pu /= => L.
apply: (loop_stuck _ L)=> c; rewrite -real_leNgt ?ger0_real ?err_ge0 //.
have -> : model_error np x H t (al, compute_B np x prox H t al) = 0; last exact: err_ge0.
rewrite /model_error /=; have -> : H - (\matrix_(i, j) x_exp x (t 0 i * al 0 j)) *m compute_B np x prox H t al = 0.
  by apply/eqP; rewrite subr_eq0 {1}E.
by rewrite norm_zero mul0r.
Qed.
End Zero.

(** ** fit *)
Lemma fit_dataE (cfg : bop_cfg C) n q (P : 'M[C]_(n, q)) m (X : 'M[C]_(n, m)) (E : data_cols cfg n q = q) :
  bc_proj cfg -> fit_data cfg P X = castmx (erefl, esym E) (adj P *m X)^T.
Proof. by move: E; rewrite /fit_data /data_cols; case: (bc_proj cfg)=> //= E _; rewrite castmx_id. Qed.

(** what a successful fit leaves: basis, eigenvalues, rank *)
Lemma fitP fuel n (d d' : bop C n) m (X : 'M[C]_(n, m)) flat k (t : 'rV[C]_k) :
  bop_fit np x fuel d X flat t = Some (d', Ok tt) ->
  flat /\ exists (e : k = m) q P r (al : 'rV[C]_r) o u,
    [/\ get_basis np (set_rank d (np_rank np (np_svd np X).1.2 n m (b_rank d))) X = Ok (existT _ q P),
        get_alpha np (set_rank d (np_rank np (np_svd np X).1.2 n m (b_rank d))) (adj P *m X) (castmx (erefl, e) t) = Ok (existT _ r al),
        bc_opts (b_cfg d) = Some o,
        compute_operator np x fuel o P (fit_data (b_cfg d) P X) (castmx (erefl, e) t) al = Some (Ok u) &
        d' = Bop (b_cfg d) (Model_Utils.RInt (BinInt.Z.of_nat (np_rank np (np_svd np X).1.2 n m (b_rank d))))
          (Some (existT _ q P)) (Some (existT _ r (push_in_place (bc_con (b_cfg d)) al)))
          (Some (existT _ m X)) (Some (existT _ k t)) (Some (Some (existT _ q (existT _ r u))))].
Proof.
rewrite /bop_fit; case: flat=> //=; case: eqP=> // e; rewrite /fit_from.
set k0 := np_rank _ _ _ _ _; set d1 := set_rank _ _.
have -> : get_basis np d1 X = get_basis np (set_rank d k0) X by [].
case EB : (get_basis _ _ _)=> [[q P]|//].
have -> : get_alpha np (set_basis d1 P) (adj P *m X) (castmx (erefl, e) t) =
          get_alpha np (set_rank d k0) (adj P *m X) (castmx (erefl, e) t) by [].
case EA : (get_alpha _ _ _ _)=> [[r al]|//].
rewrite /run_operator /=; case EO : (bc_opts _)=> [o|//].
case EC : (compute_operator _ _ _ _ _ _ _ _)=> [[u|]|] // [<-]; split=> //.
by exists e, q, P, r, al, o, u.
Qed.

(** the unbagged operator is the one of the single trial *)
Lemma operator1 fuel (cfg : bop_cfg C) o n q (P : 'M[C]_(n, q)) M (H : 'M[C]_(M, data_cols cfg n q)) t r (al : 'rV[C]_r) u :
  bc_trials cfg <= 0 -> compute_operator np x fuel o P H t al = Some (Ok u) ->
  exists2 w, single_trial np x o P H t al = Ok w &
    u = BopOp (to_w w) (to_e w) (to_b w) (to_At w) (to_A w) None.
Proof.
by move=> N; rewrite /compute_operator; case E : (single_trial _ _ _ _ _ _ _)=> [w|//]; rewrite N => -[<-]; exists w.
Qed.

(** ** The modes lie in the span of the basis when the fit is projected *)
Lemma trial_span (cfg : bop_cfg C) o n q (P : 'M[C]_(n, q)) M (H : 'M[C]_(M, data_cols cfg n q)) t r (al : 'rV[C]_r) w :
  bc_proj cfg -> bc_prox cfg = None -> single_trial np x o P H t al = Ok w -> exists Z, to_w w = P *m Z.
Proof.
move=> Pr Px /trialP [v _ [_ _ _ + _]]; rewrite (lift_proj _ _ _ Pr Px) => -[-> _].
by eexists.
Qed.
Lemma pick_span n q r (P : 'M[C]_(n, q)) (Z : 'M[C]_(q, r)) s : pick_cols (P *m Z) s = P *m pick_cols Z s.
Proof. by apply/matrixP=> i j; rewrite !mxE; apply: eq_bigr=> k _; rewrite mxE. Qed.

Lemma loop_span (cfg : bop_cfg C) n q r (P : 'M[C]_(n, q)) (run : nat -> result (trial_out C n q r)) fuel k good fails so s v :
  (forall i o, run i = Ok o -> exists Z, to_w o = P *m Z) -> (exists Z, su_w s = P *m Z) ->
  bag_loop cfg run fuel k good fails so s = Some (Ok v) -> exists Z, su_w v = P *m Z.
Proof.
move=> HR; elim: fuel k good fails so s => [|fuel IH] k good fails so s HS.
  by rewrite /=; case: ifP=> // _ [<-].
rewrite loopE; case: ifP=> [_ [<-] //|_]; case Ek : (run k)=> [o|//].
case: ifP=> _.
  case: (argsort_eigs _ _)=> // -[so' p]; case: ifP=> // _; apply: IH.
  have [Z1 E1] := HS; have [Z2 E2] := HR _ _ Ek; exists (Z1 + pick_cols Z2 p).
  by rewrite /= E1 E2 pick_span mulmxDr.
by case: ifP=> // _; exact: IH.
Qed.

Lemma operator_span fuel (cfg : bop_cfg C) o n q (P : 'M[C]_(n, q)) M (H : 'M[C]_(M, data_cols cfg n q)) t r (al : 'rV[C]_r) u :
  bc_proj cfg -> bc_prox cfg = None -> compute_operator np x fuel o P H t al = Some (Ok u) ->
  exists Z, bo_modes u = P *m Z.
Proof.
move=> Pr Px; rewrite /compute_operator; case E : (single_trial _ _ _ _ _ _ _)=> [w|//].
case: ifP=> _; first by move=> [<-]; exact: trial_span E.
case L : (bag_loop _ _ _ _ _ _ _ _)=> [[s|]|] // [<-].
have [||Z EZ] := @loop_span _ _ _ _ P _ _ _ _ _ _ _ _ _ _ L.
- move=> i w'; rewrite /bag_trial; case: (bag _ _ _ _)=> //= l; exact: trial_span.
- by exists 0; rewrite mulmx0.
exists ((bc_trials cfg)%:~R^-1 *: Z); rewrite -scalemxAr -EZ /=; apply/matrixP=> i j.
by rewrite !mxE mulrC.
Qed.

(** ** Exact data *)
Lemma cast_mul a b p p' (E : p' = p) (A : 'M[C]_(a, b)) (B : 'M[C]_(b, p)) :
  castmx (erefl, esym E) (A *m B) = A *m castmx (erefl, esym E) B.
Proof. by move: B; case: p / E => B; rewrite !castmx_id. Qed.
Lemma cast_mul' a b p p' (E : p' = p) (A : 'M[C]_(a, b)) (B : 'M[C]_(b, p')) (B0 : 'M[C]_(b, p)) :
  A *m B = A *m castmx (erefl, esym E) B0 -> A *m castmx (erefl, E) B = A *m B0.
Proof. by move: B B0; case: p / E => B B0; rewrite !castmx_id. Qed.
Lemma cast_amps b p p' (E : p' = p) (B : 'M[C]_(b, p')) : mode_amps (castmx (erefl, E) B)^T = mode_amps B^T.
Proof. by move: B; case: p / E => B; rewrite !castmx_id. Qed.
Lemma trial_exact (cfg : bop_cfg C) o n q (P : 'M[C]_(n, q)) m (X : 'M[C]_(n, m)) t r (al : 'rV[C]_r) w (B0 : 'M[C]_(r, q)) :
  bc_proj cfg -> bc_prox cfg = None ->
  (forall a b (A : 'M[C]_(a, b)), norm_ok np A) -> (forall a b (A : 'M[C]_(a, b)) y, lstsq_ok np A y) ->
  push x (bc_con cfg) al = Ok al -> adj P *m P = 1%:M -> X = P *m (exp_mx x t al *m B0)^T ->
  single_trial np x o P (fit_data cfg P X) t al = Ok w ->
  exists B, [/\ exp_mx x t al *m B = exp_mx x t al *m B0,
    [/\ to_w w = P *m unit_modes B^T, to_e w = al & to_b w = mode_amps B^T], to_conv w = false &
    predict x (to_w w) (to_e w) (to_b w) t = P *m (exp_mx x t al *m (drop_tiny B^T)^T)^T].
Proof.
move=> Pr Px No Ls Pu PP EX; rewrite (fit_dataE P X (data_cols_proj n q Pr) Pr).
have -> : (adj P *m X)^T = exp_mx x t al *m B0 by rewrite EX mulmxA PP mul1mx trmxK.
move=> /trialP [v EV [E1 E2 E3 E4 _]].
have PU : prox_unprojected cfg = None by rewrite /prox_unprojected Pr.
rewrite PU in EV; set H := castmx _ _ in EV.
pose D := data_cols_proj n q Pr.
pose B0' := castmx (erefl, esym D) B0.
have EH : H = exp_mx x t al *m B0' by exact: cast_mul.
have LS := lstsq_mxP (fun j => Ls _ _ (exp_mx x t al) (col j H)).
have EB : H = exp_mx x t al *m compute_B np x None H t al by rewrite /compute_B (lstsq_range LS EH).
have Ev := start_exact No Pu EB EV; subst v.
set B := compute_B np x None H t al in EB EV E1 E2 E3 E4; rewrite /= in E1 E2 E3 E4.
exists (castmx (erefl, D) B); move: E4; rewrite (lift_proj _ _ _ Pr Px) -/D => -[EW _].
have EB2 := cast_amps D B.
split=> //; last first.
- by rewrite EW E1 E2 -EB2 predictE.
- by rewrite EW E1 E2 EB2.
by apply: cast_mul'; rewrite -EB EH.
Qed.
End Bop.
