(** * C53: the amplitudes of opt=True after fit(X, Y) *)
From mathcomp Require Import all_ssreflect all_algebra all_field.
From Verif Require Import Py LinAlg Model_Operator Spec_Operator Proofs_OpCore Proofs_Operator Proofs_Operator2 Proofs_Recovery Proofs_OptAmp Examples_Operator.
From Verif Require Model_Utils.
Set Implicit Arguments. Unset Strict Implicit. Unset Printing Implicit Defensive.
Import GRing.Theory Num.Theory Order.TTheory.
Local Open Scope ring_scope.

Section Pair.
Variable C : numClosedFieldType.
Implicit Type np : numpy C.

(** the reconstructed data at the training times is the evolution of the modes *)
Lemma reconstruction_evolution np n r (Phi : 'M[C]_(n, r)) L b bo T t0 dt N (ts : 'I_N -> rat) :
  power_ok np -> dt != 0 -> (forall i, ts i = t0 + i%:R * dt) ->
  reconstruction Phi (dynamics np L b (OptBool bo) T t0 dt ts) = evolution Phi L b N.
Proof.
move=> HP Hdt Ht; apply/matrixP=> i k.
have E := dyn_col b HP Hdt (Ht k) (erefl : anchor (OptBool bo) T = 0%N%:Z) (or_intror (leq0n k)).
rewrite /reconstruction !mxE; apply: eq_bigr=> j _.
have := congr1 (fun M : 'cV[C]_r => M j 0) (E L); rewrite mxE => ->.
by rewrite mxE subr0 -mulrA -exprnP [b j 0 * _]mulrC.
Qed.

(** with projected modes the right-hand side of the code is the one of the normal equations *)
Lemma projected_q np n m cfg c' (X Y : 'M[C]_(n, m)) o : compute_operator np cfg X Y = (c', Ok o) ->
  c_exact cfg = false -> c_rescale cfg = RsNone C -> svd_ok np X ->
  amplitudes np false (OptBool true) X X o = amplitudes np true (OptBool true) X X o.
Proof.
move=> H He Hr; rewrite /svd_ok /amplitudes; move: H; rewrite /compute_operator.
move: (np_rank _ _ _ _ _) => r; case: (np_svd np X) => [[U0 s0] Vh0] /= H HS; move: H.
case: (forward_backward _ _ _ _ _ _) => [A|x] //=; rewrite /fix_rescale Hr; case: (eigenquantities _ _ _) => [ew|x] //= [_ <-] /=.
rewrite /compute_modes He Hr; case: ifP=> // _; congr (Ok (np_solve _ _ _)).
have EV : \matrix_(i, j) (if insub (val j) is Some j' then (adj Vh0) i j' else 0) = take_cols (adj Vh0) r.
  apply/matrixP=> i j; rewrite !mxE; have Hj : (j < minn n m)%N := leq_trans (ltn_ord j) (leq_ord r).
  by case: insubP => [k _ Ek|]; [rewrite adjE; congr ((Vh0 _ _)^*); apply: val_inj|rewrite /= Hj].
have Es : \row_j (if insub (val j) is Some j' then s0 0 j' else 0) = take_cols s0 r.
  apply/matrixP=> i j; rewrite !mxE; have Hj : (j < minn n m)%N := leq_trans (ltn_ord j) (leq_ord r).
  by case: insubP => [k _ Ek|]; [rewrite (ord1 i); congr (s0 _ _); apply: val_inj|rewrite /= Hj].
rewrite EV Es /opt_q_proj /opt_q_exact; congr conj_diag; rewrite -!mulmxA; congr (_ *m _); rewrite !mulmxA; congr (_ *m _).
have L := leq_ord r; have T := trunc_UX L HS; rewrite !take_colsE.
have := congr1 (@adj C _ _) T; rewrite !adjM !adjK adj_diag (sr_conj L HS) => ->.
by congr (_ *m _); rewrite /conj_mx -[LHS]/(map_mx conjC _) map_diag_mx (sr_conj L HS).
Qed.

(** Given two arguments, opt=True is optimal for the first one with exact modes and, unlike after fit(S), with projected modes: no other
    amplitudes bring the reconstruction at the training times closer to X, and none brings it as close. *)
Theorem C53_pair np cfg cfg' n m (X Y : 'M[C]_(n, m)) f :
  fit_xy np cfg X Y = (cfg', Ok f) -> d_opt cfg = OptBool true ->
  c_exact (d_op cfg) \/ [/\ d_tlsq cfg = 0, c_rescale (d_op cfg) = RsNone C & svd_ok np X] ->
  (let P := opt_P (of_modes (df_op f)) (of_eigs (df_op f)) m in forall q, P \in unitmx -> solve_ok np P q) -> power_ok np ->
  forall t0 dt (ts : 'I_m -> rat), dt != 0 -> (forall i, ts i = t0 + i%:R * dt) ->
  let data b := reconstruction (of_modes (df_op f)) (dynamics np (of_eigs (df_op f)) b (d_opt cfg) m t0 dt ts) in
  forall c, frob2 (X - data (df_b f)) <= frob2 (X - data c) /\
            (frob2 (X - data c) <= frob2 (X - data (df_b f)) -> c = df_b f).
Proof.
move=> H Ho Hc Hs HP t0 dt ts Hdt Ht data c.
have [Hop Ha _ _] := fit_inv H; rewrite Ho in Ha.
have {}Ha : amplitudes np true (OptBool true) X X (df_op f) = Ok (df_b f).
  case He: (c_exact (d_op cfg)) Ha Hc => Ha; first by [].
  case=> // -[H0 Hr HS]; have {}Hop : compute_operator np (d_op cfg) X Y = (d_op cfg', Ok (df_op f)) by move: Hop; rewrite H0 /compute_tlsq eqxx.
  by rewrite -(projected_q Hop He Hr HS).
have [H1 H2] := amplitudes_optimal Ha Hs.
have E b : data b = evolution (of_modes (df_op f)) (of_eigs (df_op f)) b m by rewrite /data Ho reconstruction_evolution.
by rewrite !E; split; [exact: H1|exact: H2].
Qed.
End Pair.
Print Assumptions C53_pair.

(** Projected modes of the swap, fitted from the pair of its first two snapshots and the next ones *)
Example C53_pair_case : let cfg := ex_cfg false (OptBool true) in let X := col' ord_max ex_S in
  exists f, [/\ fit_xy ex_np cfg X (col' ord0 ex_S) = (cfg, Ok f), d_tlsq cfg = 0 /\ c_rescale (d_op cfg) = RsNone _, svd_ok ex_np X,
    power_ok ex_np & (let P := opt_P (of_modes (df_op f)) (of_eigs (df_op f)) 2 in forall q, P \in unitmx -> solve_ok ex_np P q)].
Proof.
move=> cfg X.
have HP : opt_P (of_modes (ex_o false)) (of_eigs (ex_o false)) 2 = 2%:R%:M.
  rewrite /opt_P ex_modes_orth ex_eigs; apply/matrixP=> i j; rewrite !mxE.
  case: (eqVneq i j)=> [<-|]; last by rewrite mul0r.
  have N k : (((-1) ^+ i) ^+ k)^* * ((-1) ^+ i) ^+ k = 1 :> algC.
    by rewrite -exprM rmorphX rmorphN1 -exprMn mulrNN mulr1 expr1n.
  rewrite mul1r rmorph_sum (eq_bigr (fun _ => 1)); first by rewrite sumr_const card_ord.
  by move=> k _; rewrite adjE !mxE rmorphM /= conjCK N.
have HU : opt_P (of_modes (ex_o false)) (of_eigs (ex_o false)) 2 \in unitmx by rewrite HP unitmxE det_scalar unitrX // unitfE pnatr_eq0.
have E : fit_xy ex_np cfg X (col' ord0 ex_S) = (cfg,
  let! b := amplitudes ex_np false (OptBool true) X X (ex_o false) in Ok (@DmdFit algCnumClosedField 2 2 (ex_o false) b)) by [].
move: E; rewrite {1}/amplitudes HU /= => E.
eexists; split; [exact: E|by []|by rewrite /X ex_X; exact: ex_svd|exact: ex_power_spec|by move=> P q; exact: ex_solve].
Qed.
