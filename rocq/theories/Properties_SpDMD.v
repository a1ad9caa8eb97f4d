(** * C36: sparsity-promoting DMD *)
From mathcomp Require Import all_ssreflect all_algebra all_field.
From Verif Require Import Py LinAlg Model_Operator Spec_Operator Proofs_OpCore Proofs_Operator Proofs_Operator2 Proofs_Recovery Examples_Operator.
From Verif Require Import Proofs_OptAmp Properties_OptAmp Model_SpDMD Spec_SpDMD Proofs_SpDMD.
Set Implicit Arguments. Unset Strict Implicit. Unset Printing Implicit Defensive.
Import GRing.Theory Num.Theory Order.TTheory.
Local Open Scope ring_scope.
Local Notation AC := algCnumClosedField.

Section C36.
Variable C : numClosedFieldType.
Implicit Types (np : numpy C) (sn : sp_numpy C).

(** the parts of a successful fit *)
Lemma spdmd_inv np sn cfg cfg' sc n m (S : 'M[C]_(n, m.+1)) f : spdmd_fit np sn cfg sc S = (cfg', Ok f) ->
  let o := sf_op f in
  let P := opt_P (of_modes o) (of_eigs o) m.+1 in
  let q := sp_q np (c_exact (d_op cfg)) S (col' ord_max S) o in
  (exists b, fit np cfg S = (cfg', Ok (@DmdFit C n m o b))) /\
  exists L, [/\ sp_cholesky sn (P + (sp_rho sc / 2%:R)%:M) = Ok L,
    find_zero_amplitudes np sc L q = (sf_iter f, sf_zero f) & sf_b f = optimal_sparse sn sc P q (sf_zero f)].
Proof.
rewrite /spdmd_fit; case E: (fit np cfg S)=> [c [[o b]|x]] //= -[<-].
case EL: (sp_cholesky _ _)=> [L|x] //=; case EZ: (find_zero_amplitudes _ _ _ _)=> [i Z] [<-] /=.
by split; [exists b | exists L].
Qed.

(** ** The amplitudes *)

(** With enforce_zero the amplitudes of the discarded modes are exactly zero, whatever the solver returns. *)
Theorem C36_exact_zeros np sn cfg cfg' sc n m (S : 'M[C]_(n, m.+1)) f :
  spdmd_fit np sn cfg sc S = (cfg', Ok f) -> sp_enforce sc -> forall i, i \in sf_zero f -> sf_b f i 0 = 0.
Proof.
by move=> /spdmd_inv [_ [L [_ _ ->]]] He i Hi; rewrite /optimal_sparse He mxE Hi.
Qed.

(** Exact modes: among all the amplitudes that vanish on the discarded modes, those of the fit bring the
    reconstruction closest to the snapshots, and no others bring it as close; they vanish there with or without
    enforce_zero. *)
Theorem C36_optimal np sn cfg cfg' sc n m (S : 'M[C]_(n, m.+1)) f :
  spdmd_fit np sn cfg sc S = (cfg', Ok f) -> c_exact (d_op cfg) ->
  let P := opt_P (of_modes (sf_op f)) (of_eigs (sf_op f)) m.+1 in
  let q := opt_q_exact (of_modes (sf_op f)) (of_eigs (sf_op f)) S in
  P \in unitmx -> spsolve_ok sn (kkt P (sf_zero f)) (col_mx q 0) ->
  power_ok np -> forall bo, d_opt cfg = OptBool bo ->
  forall t0 dt (ts : 'I_m.+1 -> rat), dt != 0 -> (forall i, ts i = t0 + i%:R * dt) ->
  let data b := reconstruction (of_modes (sf_op f)) (dynamics np (of_eigs (sf_op f)) b (d_opt cfg) m.+1 t0 dt ts) in
  (forall i, i \in sf_zero f -> sf_b f i 0 = 0) /\
  forall c : 'cV[C]_(of_r (sf_op f)), (forall i, i \in sf_zero f -> c i 0 = 0) ->
    frob2 (S - data (sf_b f)) <= frob2 (S - data c) /\ (frob2 (S - data c) <= frob2 (S - data (sf_b f)) -> c = sf_b f).
Proof.
move=> /spdmd_inv [_ [L [_ _ Hb]]] He P q U Hs HP bo Ho t0 dt ts Hdt Ht data.
have E b : data b = evolution (of_modes (sf_op f)) (of_eigs (sf_op f)) b m.+1 by rewrite /data Ho reconstruction_evolution.
move: Hb; rewrite /sp_q He -/P -/q /optimal_sparse.
have := Hs (kkt_unit (sf_zero f) U); rewrite -{1}[sp_spsolve _ _ _]vsubmxK => /kkt_solution.
set x := usubmx _ => -[xZ xP].
have -> : (if sp_enforce sc then \col_i (if i \in sf_zero f then 0 else x i 0) else x) = x.
  by case: ifP=> // _; apply/colP=> i; rewrite mxE; case: ifP=> // Hi; rewrite xZ.
move=> ->; split=> // c cZ; rewrite !E.
by have [H1 H2] := constrained_optimal xZ xP cZ; split=> //; exact: H2.
Qed.

(** Any modes: the optimality system of the code, P b = q off the discarded modes *)
Theorem C36_system np sn cfg cfg' sc n m (S : 'M[C]_(n, m.+1)) f :
  spdmd_fit np sn cfg sc S = (cfg', Ok f) ->
  let P := opt_P (of_modes (sf_op f)) (of_eigs (sf_op f)) m.+1 in
  let q := sp_q np (c_exact (d_op cfg)) S (col' ord_max S) (sf_op f) in
  P \in unitmx -> spsolve_ok sn (kkt P (sf_zero f)) (col_mx q 0) ->
  (forall i, i \in sf_zero f -> sf_b f i 0 = 0) /\ (forall i, i \notin sf_zero f -> (P *m sf_b f) i 0 = q i 0).
Proof.
move=> /spdmd_inv [_ [L [_ _ Hb]]] P q U Hs; move: Hb; rewrite -/P -/q /optimal_sparse.
have := Hs (kkt_unit (sf_zero f) U); rewrite -{1}[sp_spsolve _ _ _]vsubmxK.
set x := usubmx _; set y := dsubmx _; rewrite /kkt mul_block_col mul0mx addr0 => /eq_col_mx [H1 H2].
have xZ := basis_adj0 H2.
have -> : (if sp_enforce sc then \col_i (if i \in sf_zero f then 0 else x i 0) else x) = x.
  by case: ifP=> // _; apply/colP=> i; rewrite mxE; case: ifP=> // Hi; rewrite xZ.
by move=> ->; split=> // i Hi; rewrite -H1 [RHS]mxE basis_mul // addr0.
Qed.

(** ** The iterations *)

(** A fit never fails in the factorisation when rho is positive. *)
Theorem C36_accepts np sn cfg cfg' sc n m (S : 'M[C]_(n, m.+1)) (g : dmd_fit C n m) :
  fit np cfg S = (cfg', Ok g) -> 0 < sp_rho sc ->
  cholesky_ok sn (opt_P (of_modes (df_op g)) (of_eigs (df_op g)) m.+1 + (sp_rho sc / 2%:R)%:M) ->
  exists f, spdmd_fit np sn cfg sc S = (cfg', Ok f) /\ sf_op f = df_op g.
Proof.
move=> H Hr Hc; rewrite /spdmd_fit H /=.
have [L [-> _]] := Hc (P_posdef _ _ _ Hr) => /=.
by case: (find_zero_amplitudes _ _ _ _)=> i Z; eexists; split.
Qed.

(** The loop stops after at most max_iterations iterations, at the first one that passes the stopping test;
    the discarded modes are those whose beta BEFORE the last update is below the tolerance. *)
Theorem C36_iterations np sn cfg cfg' sc n m (S : 'M[C]_(n, m.+1)) f :
  spdmd_fit np sn cfg sc S = (cfg', Ok f) -> 0 < sp_rho sc ->
  let P := opt_P (of_modes (sf_op f)) (of_eigs (sf_op f)) m.+1 in
  let q := sp_q np (c_exact (d_op cfg)) S (col' ord_max S) (sf_op f) in
  cholesky_ok sn (P + (sp_rho sc / 2%:R)%:M) ->
  (forall L, sp_cholesky sn (P + (sp_rho sc / 2%:R)%:M) = Ok L -> forall y, solve_ok np L y /\ solve_ok np (adj L) y) ->
  exists a b l, admm_run sc P q a b l /\
  [/\ (sf_iter f <= sp_max sc)%N, (forall j, (j < sf_iter f)%N -> ~ converged sc a b l j.+1),
      sf_iter f = sp_max sc \/ converged sc a b l (sf_iter f).+1 &
      forall j, (j \in sf_zero f) <-> exists x, b (sf_iter f) j = Some x /\ `|x| < sp_zero sc].
Proof.
move=> /spdmd_inv [_ [L [HL HZ _]]] Hr P q Hc Hs.
have [L' [EL LL]] := Hc (P_posdef _ _ _ Hr); rewrite HL in EL; case: EL LL => <- LL.
by apply: find_zero_spec LL _ _ _ _ HZ => y; [exact: (Hs _ HL y).1 | exact: (Hs _ HL y).2].
Qed.

(** In every run the alpha step is the exact minimiser of the error plus the quadratic penalty (exact modes). *)
Theorem C36_alpha_step (sc : sp_cfg C) n r N (Phi : 'M[C]_(n, r)) (eigs : 'rV[C]_r) (S : 'M[C]_(n, N)) a b l :
  0 < sp_rho sc -> admm_run sc (opt_P Phi eigs N) (opt_q_exact Phi eigs S) a b l ->
  forall k (bv lv : 'cV[C]_r), (forall i, b k i = Some (bv i 0)) -> (forall i, l k i = Some (lv i 0)) ->
  exists av : 'cV[C]_r, (forall i, a k.+1 i = Some (av i 0)) /\
  let objective x := frob2 (S - evolution Phi eigs x N) + sp_rho sc / 2%:R * frob2 (x - (bv - (sp_rho sc)^-1 *: lv)) in
  forall c, objective av <= objective c /\ (objective c <= objective av -> c = av).
Proof.
move=> Hr R k bv lv Hb Hl; have [av [Ha E]] := run_alpha R Hb Hl.
by exists av; split=> // c; exact: alpha_minimises.
Qed.

(** ** Soft thresholding *)

(** The operator of the code keeps only the phase of an entry: its modulus becomes |1 - k| above the threshold. *)
Theorem C36_soft_threshold (k v : C) : 0 <= k ->
  [/\ v = 0 -> soft_threshold k v = None,
      v != 0 -> ~~ (k < `|v|) -> soft_threshold k v = Some 0 &
      k < `|v| -> exists y, soft_threshold k v = Some y /\ `|y| = `|1 - k| /\ y * `|v| = (1 - k) * v].
Proof.
move=> Hk; rewrite soft_form; split.
- by move=> ->; rewrite eqxx.
- by move=> /negbTE -> /negbTE ->.
move=> H; have v0 : v != 0 by rewrite -normr_gt0 (le_lt_trans Hk).
exists ((1 - k) * (v / `|v|)); rewrite (negbTE v0) H; split=> //; split.
  by rewrite normrM normrM normfV normr_id divff ?mulr1 // normr_eq0.
by rewrite -mulrA -mulrA mulVf ?mulr1 // normr_eq0.
Qed.
(** It is the operator of the cited paper on the unit circle only. *)
Theorem C36_soft_threshold_refuted (k v : C) : 0 <= k -> k < `|v| ->
  (soft_threshold k v = Some (shrinkage k v)) <-> `|v| = 1.
Proof.
move=> Hk H; have v0 : v != 0 by rewrite -normr_gt0 (le_lt_trans Hk).
have n0 : `|v| != 0 by rewrite normr_eq0.
rewrite soft_form (negbTE v0) H /shrinkage H; split=> [[]|E]; last first.
  by rewrite E !divr1.
rewrite mulrCA [RHS]mulrC => /(mulfI v0) E; apply: (addIr (- k)).
by rewrite -[RHS](divfK n0) E mulrBl mul1r divfK.
Qed.

(** No iteration: a run stopped right after the first update (or max_iterations = 0) discards every mode. *)
Theorem C36_no_iterations_refuted np sn cfg cfg' sc n m (S : 'M[C]_(n, m.+1)) f :
  spdmd_fit np sn cfg sc S = (cfg', Ok f) -> 0 < sp_zero sc -> sf_iter f = 0%N ->
  sf_zero f = setT /\ (sp_enforce sc -> sf_b f = 0).
Proof.
move=> H H0 Hi; suff E : sf_zero f = setT.
  by split=> // He; apply/colP=> i; rewrite (C36_exact_zeros H) ?mxE // E inE.
by have [_ [L [_ HZ _]]] := spdmd_inv H; rewrite Hi in HZ; exact: find_zero_first HZ.
Qed.

(** NaN: data without any component along the modes keeps every mode (no mode is discarded) *)
Theorem C36_no_component_refuted np sn cfg cfg' sc n m (S : 'M[C]_(n, m.+1)) f :
  spdmd_fit np sn cfg sc S = (cfg', Ok f) -> 0 < sp_rho sc ->
  let P := opt_P (of_modes (sf_op f)) (of_eigs (sf_op f)) m.+1 in
  sp_q np (c_exact (d_op cfg)) S (col' ord_max S) (sf_op f) = 0 ->
  cholesky_ok sn (P + (sp_rho sc / 2%:R)%:M) ->
  (forall L, sp_cholesky sn (P + (sp_rho sc / 2%:R)%:M) = Ok L -> forall y, solve_ok np L y /\ solve_ok np (adj L) y) ->
  (0 < sp_max sc)%N -> (0 < of_r (sf_op f))%N -> sf_iter f = sp_max sc /\ sf_zero f = set0.
Proof.
move=> H Hr P q0 Hc Hs Hm Hpos.
have [a [b [l [R [_ _ Hstop HZ]]]]] := C36_iterations H Hr Hc Hs; rewrite q0 in R.
have inj (x : 'cV[C]_(of_r (sf_op f))) : P *m x + (sp_rho sc / 2%:R) *: x = 0 -> x = 0.
  move=> Hx; apply/eqP; apply: contraT => x0.
  have [_ /(_ x x0)] := P_posdef m.+1 (of_modes (sf_op f)) (of_eigs (sf_op f)) Hr.
  by rewrite -mulmxA mulmxDl mul_scalar_mx -/P Hx mulmx0 mxE ltxx.
have N := run_zero Hr inj R.
have Hi : sf_iter f = sp_max sc.
  case: Hstop=> // -[av [bv [_ [_ [[_ Hb _ _] _]]]]].
  by have := Hb (Ordinal Hpos); rewrite N.
split=> //; apply/setP=> j; rewrite inE; apply/negP=> /HZ [x []].
by rewrite Hi; case: (sp_max sc) Hm => // k _; rewrite N.
Qed.
End C36.
Print Assumptions C36_exact_zeros.
Print Assumptions C36_optimal.
Print Assumptions C36_system.
Print Assumptions C36_accepts.
Print Assumptions C36_iterations.
Print Assumptions C36_alpha_step.
Print Assumptions C36_soft_threshold.
Print Assumptions C36_soft_threshold_refuted.
Print Assumptions C36_no_iterations_refuted.
Print Assumptions C36_no_component_refuted.

(** ** The swap system of Examples_Operator, for any parameters with rho = 2 *)
Definition ex_sn : sp_numpy AC := {|
  sp_cholesky := fun r M => Ok (map_mx sqrtC M);
  sp_spsolve := fun r K y => invmx K *m y |}.
Lemma ex_chol (x : AC) r : 0 <= x -> map_mx sqrtC (x%:M : 'M[AC]_r) *m adj (map_mx sqrtC (x%:M : 'M[AC]_r)) = x%:M.
Proof.
move=> Hx; have -> : map_mx sqrtC (x%:M : 'M[AC]_r) = (sqrtC x)%:M.
  by apply/matrixP=> i j; rewrite !mxE; case: (i == j); rewrite ?mulr1n ?mulr0n ?sqrtC0.
have -> : adj ((sqrtC x)%:M : 'M[AC]_r) = (sqrtC x)%:M.
  apply/matrixP=> i j; rewrite adjE !mxE eq_sym; case: (i == j); rewrite ?mulr1n ?mulr0n ?rmorph0 //.
  by rewrite conj_Creal // ger0_real // sqrtC_ge0.
by rewrite -scalar_mxM -expr2 sqrtCK.
Qed.
Definition ex_sc (gamma : AC) (mx : nat) (enforce : bool) (zero : AC) : sp_cfg AC :=
  SpCfg 2%:R gamma mx 0 0 enforce zero.
Lemma ex_sp_chol gamma mx e zero exact (o := ex_o exact) :
  cholesky_ok ex_sn (opt_P (of_modes o) (of_eigs o) 3 + (sp_rho (ex_sc gamma mx e zero) / 2%:R)%:M).
Proof.
move=> _; rewrite /o ex_P -(raddfD (scalar_mx_additive _ _)) /=; eexists; split; first by [].
by apply: ex_chol; rewrite addr_ge0 ?ler0n ?divr_ge0 ?ler0n.
Qed.
Lemma ex_sp_solve gamma mx e zero exact (o := ex_o exact) L :
  sp_cholesky ex_sn (opt_P (of_modes o) (of_eigs o) 3 + (sp_rho (ex_sc gamma mx e zero) / 2%:R)%:M) = Ok L ->
  forall y, solve_ok ex_np L y /\ solve_ok ex_np (adj L) y.
Proof.
rewrite /o ex_P -(raddfD (scalar_mx_additive _ _)) /= => -[<-] y.
have U : map_mx sqrtC ((3%:R + 2%:R / 2%:R)%:M : 'M[AC]_2) *m adj (map_mx sqrtC ((3%:R + 2%:R / 2%:R)%:M : 'M[AC]_2)) \in unitmx.
  have H : 0 <= (3%:R + 2%:R / 2%:R : AC) by rewrite addr_ge0 ?ler0n ?divr_ge0 ?ler0n.
  rewrite (ex_chol _ H) unitmxE det_scalar unitrX // unitfE divff ?pnatr_eq0 //.
  by rewrite -[1]/(1%:R) -natrD pnatr_eq0.
by move: U; rewrite unitmx_mul => /andP[U1 U2]; split; apply: ex_solve.
Qed.
Lemma ex_sp_fit gamma mx e zero exact opt (k : 'I_3) : opt <> OptBool true ->
  col_index 3 (match opt with OptInt z => z | _ => 0 end) = Some k ->
  exists f, spdmd_fit ex_np ex_sn (ex_cfg exact opt) (ex_sc gamma mx e zero) ex_S = (ex_cfg exact opt, Ok f) /\ sf_op f = ex_o exact.
Proof.
move=> Ho Hk; have := @C36_accepts AC ex_np ex_sn _ _ (ex_sc gamma mx e zero) _ _ _ _ (ex_fit exact Ho Hk).
by apply; [rewrite ltr0n | exact: ex_sp_chol].
Qed.
(** all the hypotheses of C36_optimal and C36_iterations at once *)
Example C36_case : forall gamma mx e zero, exists f,
  [/\ spdmd_fit ex_np ex_sn (ex_cfg true (OptBool false)) (ex_sc gamma mx e zero) ex_S = (ex_cfg true (OptBool false), Ok f),
      opt_P (of_modes (sf_op f)) (of_eigs (sf_op f)) 3 \in unitmx,
      (forall r (K : 'M[AC]_r) y, spsolve_ok ex_sn K y) &
      cholesky_ok ex_sn (opt_P (of_modes (sf_op f)) (of_eigs (sf_op f)) 3 + (sp_rho (ex_sc gamma mx e zero) / 2%:R)%:M) /\
      forall L, sp_cholesky ex_sn (opt_P (of_modes (sf_op f)) (of_eigs (sf_op f)) 3 + (sp_rho (ex_sc gamma mx e zero) / 2%:R)%:M) = Ok L ->
        forall y, solve_ok ex_np L y /\ solve_ok ex_np (adj L) y].
Proof.
move=> gamma mx e zero.
have H0 : col_index 3 0 = Some ord0 by rewrite -[0]/(Posz 0) /col_index insubT; congr Some; exact/val_inj.
have Hn : OptBool false <> OptBool true by [].
have [f [Hf Ho]] := @ex_sp_fit gamma mx e zero true (OptBool false) ord0 Hn H0.
exists f; rewrite Ho; split=> //; first exact: ex_Punit.
  by move=> r K y HK; rewrite /= mulKVmx.
by split; [exact: ex_sp_chol | exact: ex_sp_solve].
Qed.
(** soft thresholding on the two sides of the threshold *)
Example C36_soft_case : soft_threshold (1 : AC) 2%:R = Some 0 /\ shrinkage (1 : AC) 2%:R = 1 /\ (0 : AC) <= 1 < `|2%:R : AC|.
Proof.
have n2 : (2%:R : AC) != 0 by rewrite pnatr_eq0.
have l2 : (1 : AC) < 2%:R by rewrite -[1]/(1%:R) ltr_nat.
rewrite soft_form /shrinkage normr_nat (negbTE n2) l2 subrr mul0r ler01; split=> //; split=> //.
by rewrite mulrBl div1r mulVf // mul1r -[2%:R]/(1 + 1) addrK.
Qed.
(** a fit that makes no iteration and loses everything *)
Example C36_no_iterations_case : exists f,
  spdmd_fit ex_np ex_sn (ex_cfg true (OptBool false)) (ex_sc 1 0 true 1) ex_S = (ex_cfg true (OptBool false), Ok f) /\
  sf_iter f = 0%N /\ sf_b f = 0 /\ ex_S != 0.
Proof.
have [f [Hf U Hs [Hc HL]]] := C36_case 1 0 true 1; exists f; split=> //.
have [a [b [l [_ [Hi _ _ _]]]]] := C36_iterations Hf (ltr0Sn _ 1 : 0 < sp_rho (ex_sc 1 0 true 1)) Hc HL.
have H0 : sf_iter f = 0%N by apply/eqP; rewrite -leqn0.
have [_ Hb] := C36_no_iterations_refuted Hf (ltr01 : 0 < sp_zero (ex_sc 1 0 true 1)) H0.
split=> //; split; first exact: Hb.
by apply/eqP=> /matrixP/(_ ord0 ord0); rewrite !mxE /= => /eqP; rewrite oner_eq0.
Qed.

(** ** opt=k (amplitudes from the k-th snapshot): the amplitudes of SpDMD always refer to the first snapshot, while the dynamics
    are then counted from the k-th one, so that the reconstruction is shifted in time *)
Theorem C36_opt_index_refuted : exists np sn (cfg cfg' : dmd_cfg AC) sc (S : 'M[AC]_(2, 3)) f,
  [/\ spdmd_fit np sn cfg sc S = (cfg', Ok f), d_opt cfg = OptInt 1 /\ c_exact (d_op cfg),
      (forall r (K : 'M[AC]_r) y, spsolve_ok sn K y) /\ power_ok np,
      evolution (of_modes (sf_op f)) (of_eigs (sf_op f)) (sf_b f) 3 = S &
      forall ts : 'I_3 -> rat, (forall i, ts i = i%:R) ->
      reconstruction (of_modes (sf_op f)) (dynamics np (of_eigs (sf_op f)) (sf_b f) (d_opt cfg) 3 0 1 ts) != S].
Proof.
pose sc := ex_sc 1 0 false 0.
have H1 : col_index 3 1 = Some (lift ord0 ord0) by rewrite -[1]/(Posz 1) /col_index insubT; congr Some; exact/val_inj.
have Hn : OptInt 1 <> OptBool true by [].
have [f [Hf Ho]] := @ex_sp_fit 1 0 false 0 true (OptInt 1) _ Hn H1.
have Hsp : forall r (K : 'M[AC]_r) y, spsolve_ok ex_sn K y by move=> r K y HK; rewrite /= mulKVmx.
have Hc := @ex_sp_chol 1 0%N false 0 true; have HL := @ex_sp_solve 1 0%N false 0 true.
have EV : evolution (of_modes (ex_o true)) (of_eigs (ex_o true)) (np_lstsq ex_np (of_modes (ex_o true)) (col ord0 ex_S)) 3 = ex_S.
  have H0 : col_index 3 0 = Some ord0 by rewrite -[0]/(Posz 0) /col_index insubT; congr Some; exact/val_inj.
  have Hb : OptBool false <> OptBool true by [].
  have R := @ex_recoverable true (OptBool false) ord0 Hb H0.
  pose ts (i : 'I_3) : rat := i%:R.
  have Ht i : ts i = 0 + i%:R * 1 by rewrite add0r mulr1.
  rewrite -(reconstruction_evolution (np := ex_np) (t0 := 0) (dt := 1) (ts := ts) _ _ _ false 3) //; last exact: ex_power_spec.
  apply/matrixP=> i k.
  have := @recovery_index AC ex_np 2 2 _ _ _ _ _ R Hb (fun k => ex_lstsq true (col k ex_S)) ex_power_spec 0 1 3%N ts k k (oner_neq0 _) (Ht k) (or_intror _).
  move/(_ (lez_nat 0 k)); move/(congr1 (fun M : 'cV[algC]_2 => M i 0)); rewrite mxE => E.
  by apply: etrans E _; rewrite -(linear_state k ex_linear) mxE.
have := Hf; move: (f) Ho => -[o it Z b] /= Ho; subst o => Hf'.
have Z0 : Z = set0.
  have [a' [b' [l' [_ [_ _ _ HZ]]]]] := C36_iterations Hf' (ltr0Sn _ 1 : 0 < sp_rho sc) Hc HL.
  by apply/setP=> j; rewrite inE; apply/negP=> /HZ [x [_]]; rewrite normr_lt0.
have EB : evolution (of_modes (ex_o true)) (of_eigs (ex_o true)) b 3 = ex_S.
  have [xZ xP] := C36_system Hf' (ex_Punit true) (Hsp _ _ _).
  pose c := np_lstsq ex_np (of_modes (ex_o true)) (col ord0 ex_S).
  have cZ i : i \in Z -> c i 0 = 0 by rewrite Z0 inE.
  have [H _] := constrained_optimal xZ xP cZ; move: H; rewrite /= /c EV subrr.
  have -> : frob2 (0 : 'M[AC]_(2, 3)) = 0.
    by rewrite /frob2 big1 // => i _; rewrite big1 // => j _; rewrite mxE normr0 expr0n.
  by move=> Hle; apply/eqP; rewrite eq_sym -subr_eq0 -frob2_eq0 eq_le Hle frob2_ge0.
exists ex_np, ex_sn, (ex_cfg true (OptInt 1)), (ex_cfg true (OptInt 1)), sc, ex_S, (SpFit it Z b); split=> //.
  by split=> //; exact: ex_power_spec.
move=> ts Hts /=; apply/eqP=> /matrixP/(_ ord0 ord0); rewrite [in RHS]mxE /= => E.
have /matrixP/(_ ord0 (lift ord0 ord0)) := EB; rewrite [in RHS]mxE /= => E1.
suff : (1%:R : algC) = 0%:R by move/eqP; rewrite eqr_nat.
rewrite -E -E1 /reconstruction !mxE; apply: eq_bigr=> j _.
have Ht : ts ord0 = 0 + 0%N%:R * 1 by rewrite Hts mul0r addr0.
have HNZ : forall j, of_eigs (ex_o true) 0 j != 0 by move=> j'; exact: ex_nz.
have := dyn_col b ex_power_spec (oner_neq0 _) Ht (col_index_anchor H1) (or_introl HNZ).
move/(congr1 (fun M : 'cV[algC]_2 => M j 0)); rewrite mxE => ->.
rewrite -[RHS]mulrA; congr (_ * _); rewrite [LHS]mxE [LHS]mulrC; congr (_ * _).
change (of_eigs (ex_o true) 0 j ^ (-1) = of_eigs (ex_o true) 0 j ^+ 1).
by rewrite exprN1 expr1 ex_eigs mxE invr_sign.
Qed.
Print Assumptions C36_opt_index_refuted.
