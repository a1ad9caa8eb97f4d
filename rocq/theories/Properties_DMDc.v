(** * C31: DMD with control *)
From mathcomp Require Import all_ssreflect all_algebra all_field.
From Verif Require Import Py LinAlg Model_Operator Spec_Operator Model_DMDc Spec_DMDc Proofs_OpCore Proofs_DMDc Examples_DMDc.
Set Implicit Arguments. Unset Strict Implicit. Unset Printing Implicit Defensive.
Import Order.TTheory GRing.Theory Num.Theory.
Local Open Scope ring_scope.

Section C31.
Variable C : numClosedFieldType.
Variable np : numpy C.

(** The recursion.  Any successful fit, any active modes [Phi] and eigenvalues [L],
    any window holding [lag + p] times, any input of [p] columns.  [k] is the time step
    of the window in units of the fitted one, rounded down. *)
Theorem C31_recursion n N cfg (S : 'M[C]_(n, N)) I B f r (Phi : 'M[C]_(n, r)) (L : 'rV[C]_r) (t : times) (k : int) p (V : 'M[C]_(ft_q f, p)) :
  fit np cfg S I B = Ok f -> (ft_lag f <= N)%N ->
  0 < tm_dt t -> ((ft_lag f + p)%:R - 2%:R) * tm_dt t < tm_tend t - tm_t0 t <= ((ft_lag f + p)%:R - 1) * tm_dt t ->
  k%:~R <= tm_dt t / tm_dt0 t < k%:~R + 1 ->
  power_ok np -> (0 <= k \/ forall j, L 0 j != 0) ->
  exists d, reconstructed_data np f Phi L t (Some (Arr2 (Mat V))) = Ok d /\
  [/\ size d = (ft_lag f + p)%N,
      forall j, (j < ft_lag f)%N -> nth 0 d j = nth 0 (columns S) j &
      driven (Phi *m diag_mx (\row_j L 0 j ^ k) *m np_pinv np Phi) (ft_B f) (ft_lag f) (columns V) d].
Proof.
move=> Hf HN Hdt Ht Hk HP HL; have [Hl HS] := fit_lag Hf.
have [||d [Hd [S1 S2 S3]]] := @recon_spec C np n N f r Phi L t p V.
- by rewrite Hl.
- exact: n_steps_count.
rewrite (step_power _ HP Hk HL) in S3.
by exists d; split=> //; split=> // j Hj; rewrite S2 // HS.
Qed.

(** without an argument the input given to fit is used; fit keeps it as it was given *)
Theorem C31_default_input n N cfg (S : 'M[C]_(n, N)) I B f r (Phi : 'M[C]_(n, r)) L t : fit np cfg S I B = Ok f ->
  ft_I f = atleast_2d I /\
  reconstructed_data np f Phi L t None = reconstructed_data np f Phi L t (Some (Arr2 (atleast_2d I))).
Proof. by move=> H; rewrite recon_default (fit_input H). Qed.

(** a one-dimensional input is one input channel: one row, a column per step *)
Theorem C31_input_row n N cfg (S : 'M[C]_(n, N)) (l : seq C) B (M : 'M[C]_(1, size l)) : (forall j, M 0 j = l`_j) ->
  fit np cfg S (Arr1 l) B = fit np cfg S (Arr2 (Mat M)) B.
Proof. by move=> H; rewrite /fit /= (_ : \row_(j < size l) l`_j = M) //; apply/rowP => j; rewrite mxE H. Qed.

(** Refusals: a lag below one, inputs whose number does not fit, inputs of the wrong dimension *)
Theorem C31_refusals n N cfg (S : 'M[C]_(n, N)) :
  [/\ forall I B, dc_lag cfg < 1 -> fit np cfg S I B = Err ValueError,
      forall (f : dc_fit C n N) r (Phi : 'M[C]_(n, r)) L t u,
        (last_dim u + ft_lag f)%N != n_steps t -> reconstructed_data np f Phi L t (Some u) = Err RuntimeError,
      forall (f : dc_fit C n N) r (Phi : 'M[C]_(n, r)) L t (M : mat C),
        (ft_lag f <= N)%N -> (mcols M + ft_lag f)%N = n_steps t -> (0 < mcols M)%N -> mrows M <> ft_q f ->
        reconstructed_data np f Phi L t (Some (Arr2 M)) = Err ValueError &
      forall (f : dc_fit C n N) r (Phi : 'M[C]_(n, r)) L t (l : seq C),
        (ft_lag f <= N)%N -> (size l + ft_lag f)%N = n_steps t -> (0 < size l)%N ->
        reconstructed_data np f Phi L t (Some (Arr1 l)) = Err ValueError].
Proof.
have E a b c : (Posz a != Posz b - Posz c) = ((a + c)%N != b) by rewrite eq_sym subr_eq -PoszD eqz_nat eq_sym.
split.
- by move=> I B; rewrite /fit; case: (dc_lag cfg)=> [[|l]|l].
- by move=> f r Phi L t u H; rewrite /reconstructed_data E H.
- move=> f r Phi L t M HN Hc H0 Hr; rewrite /reconstructed_data E /= Hc eqxx /= /reconstruct_from ltnNge HN /=.
  by rewrite eqn0Ngt H0 /=; case: eqP.
- move=> f r Phi L t l HN Hc H0; rewrite /reconstructed_data E /= Hc eqxx /= /reconstruct_from ltnNge HN /=.
  by rewrite eqn0Ngt H0.
Qed.

(** fit refuses an input with the wrong number of columns, or of rows when B is given;
    a single column is accepted with B given: it is used for every step *)
Theorem C31_input_shape n N cfg (S : 'M[C]_(n, N)) q (B : 'M[C]_(n, q)) (M : mat C) (lag : nat) :
  dc_lag cfg = lag -> (0 < lag)%N ->
  [/\ mcols M <> (N - lag)%N -> fit np cfg S (Arr2 M) None = Err ValueError,
      mrows M <> q -> fit np cfg S (Arr2 M) (Some (existT _ q B)) = Err ValueError &
      mcols M <> (N - lag)%N -> mcols M <> 1%N -> fit np cfg S (Arr2 M) (Some (existT _ q B)) = Err ValueError].
Proof.
rewrite /fit => -> ; case: lag=> // l _; split.
- by move=> /eqP H; rewrite /unknown_operator /= H.
- by move=> /eqP H; rewrite /known_operator /= H.
- move=> /eqP H1 /eqP H2; rewrite /known_operator /=; case: (_ != q)=> //=.
  by rewrite /minus_bcast (negbTE H1) (negbTE H2).
Qed.

(** B given, data of an exactly linear controlled system: B is kept, the modes are
    eigenvectors of A0 and the reconstruction returns the snapshots *)
Theorem C31_known_B n N q lag cfg A0 B0 (S : 'M[C]_(n, N)) (U : 'M[C]_(q, N - lag)) f :
  known_fit np cfg A0 B0 S U f ->
  let Phi := do_modes (ft_op f) in let L := do_eigs (ft_op f) in
  [/\ Mat (ft_B f) = Mat B0, A0 *m Phi = Phi *m diag_mx L, row_full Phi &
      reconstructed_data np f Phi L (time_of_fit N) None = Ok (columns S)].
Proof.
move=> H Phi L; have [[L1 L2 L3 L4 L5] [QQ QX] EW AQ EM] := known_core H.
have HR : regular_fit np f by case: H=> -[].
have HN : (lag <= N)%N by case: H=> -[].
have [EF AP RF] := recovered_by HR QQ EW AQ EM; split=> //; first exact: (mat_eq L5).
apply: (self_reconstruction (kf_plain H))=> // k Hk; rewrite EF -mulmxA; congr (_ *m _).
by rewrite -(past_col S (Ordinal Hk) HN) -colE_mul QX.
Qed.

(** B unknown: past and input together independent: B0 itself is found, the modes are
    eigenvectors of A0, and the reconstruction returns the snapshots as soon as the
    first ones lie in the span of the later ones *)
Theorem C31_unknown_B n N q lag cfg A0 B0 (S : 'M[C]_(n, N)) (U : 'M[C]_(q, N - lag)) f :
  unknown_fit np cfg A0 B0 S U f ->
  let Phi := do_modes (ft_op f) in let L := do_eigs (ft_op f) in
  [/\ Mat (ft_B f) = Mat B0, A0 *m Phi = Phi *m diag_mx L, row_full Phi &
      in_span (future lag S) (past lag S) ->
      reconstructed_data np f Phi L (time_of_fit N) None = Ok (columns S)].
Proof.
move=> H Phi L; have [[L1 L2 L3 L4 L5] [QQ QX] EW AQ EM] := unknown_core H.
have HR : regular_fit np f by case: H=> -[].
have HN : (lag <= N)%N by case: H=> -[].
have [EF AP RF] := recovered_by HR QQ EW AQ EM; split=> //; first exact: (mat_eq L5).
case=> c Hc; apply: (self_reconstruction (uf_plain H))=> // k Hk; rewrite EF -mulmxA; congr (_ *m _).
by rewrite -(past_col S (Ordinal Hk) HN) -colE_mul Hc mulmxA QX.
Qed.

(** With enough data the fit identifies the system, and reconstructed_data simulates it for any input *)
Theorem C31_identifies n N q lag cfg A0 B0 (S : 'M[C]_(n, N)) (U : 'M[C]_(q, N - lag)) f :
  (known_fit np cfg A0 B0 S U f /\ row_free (past lag S)) \/ (unknown_fit np cfg A0 B0 S U f /\ row_free (future lag S)) ->
  fitted_map np f = A0 /\ Mat (ft_B f) = Mat B0.
Proof.
case=> [] [H F].
- have [[L1 L2 L3 L4 L5] [QQ QX] EW AQ EM] := known_core H.
  have HR : regular_fit np f by case: H=> -[].
  have [EF _ _] := recovered_by HR QQ EW AQ EM.
  by rewrite EF (full_proj F QX) mulmx1; split=> //; exact: (mat_eq L5).
- have [[L1 L2 L3 L4 L5] [QQ QX] EW AQ EM] := unknown_core H.
  have HR : regular_fit np f by case: H=> -[].
  have [EF _ _] := recovered_by HR QQ EW AQ EM.
  by rewrite EF (full_proj F QX) mulmx1; split=> //; exact: (mat_eq L5).
Qed.

Theorem C31_simulates n N cfg (S : 'M[C]_(n, N)) I B f A0 q (B0 : 'M[C]_(n, q)) (t : times) p (V : 'M[C]_(q, p)) :
  fit np cfg S I B = Ok f -> regular_fit np f -> (ft_lag f <= N)%N ->
  fitted_map np f = A0 -> Mat (ft_B f) = Mat B0 ->
  tm_dt0 t != 0 -> tm_dt t = tm_dt0 t -> n_steps t = (ft_lag f + p)%N ->
  exists d, reconstructed_data np f (do_modes (ft_op f)) (do_eigs (ft_op f)) t (Some (Arr2 (Mat V))) = Ok d /\
  [/\ size d = (ft_lag f + p)%N, forall j, (j < ft_lag f)%N -> nth 0 d j = nth 0 (columns S) j &
      driven A0 B0 (ft_lag f) (columns V) d].
Proof.
move=> Hf HR HN EA EB T0 T1 Ht; have [Hl HS] := fit_lag Hf.
have Eq : ft_q f = q by move: (congr1 (@mcols C) EB).
have {EB} : existT (fun q => 'M[C]_(n, q)) (ft_q f) (ft_B f) = existT _ q B0 by exact: mat_eqV.
move=> EB; have [d [Hd [S1 S2 S3]]] := recon_spec_eq np (do_modes (ft_op f)) (do_eigs (ft_op f)) V (conj Hl HN) Ht EB.
rewrite (step_fitted HR T0 T1) EA in S3.
by exists d; split=> //; split=> // j Hj; rewrite S2 // HS.
Qed.

(** Without any assumption on the data: the fitted pair is a least-squares solution *)
Theorem C31_least_squares_unknown n N q (lag : nat) cfg (S : 'M[C]_(n, N)) (U : 'M[C]_(q, N - lag)) f :
  fit np cfg S (Arr2 (Mat U)) None = Ok f -> dc_lag cfg = lag -> regular_fit np f ->
  kept np (col_mx (past lag S) U) (dc_rank_omega cfg) -> kept np (future lag S) (dc_rank cfg) -> row_free (future lag S) ->
  exists Bf, Mat (ft_B f) = Mat Bf /\
  forall A B, frob2 (future lag S - (fitted_map np f *m past lag S + Bf *m U)) <= frob2 (future lag S - (A *m past lag S + B *m U)).
Proof.
move=> Hf Hlag HR Hp Hy F; have HE := rf_eig HR.
have [[L1 L2 L3 L4] [r [P [s [V [[EP EB] [QQ QY] EA EM EW]]]]]] := unknown_parts Hlag Hf Hp Hy HE.
have Q1 := full_proj F QY.
set G := future lag S *m V *m _ *m _ in EB EA EM.
have AQ : lsubmx G *m do_basis (ft_op f) = do_basis (ft_op f) *m do_Atilde (ft_op f) by rewrite EA !mulmxA Q1 mul1mx.
have [EF _ _] := recovered_by HR QQ EW AQ EM.
exists (rsubmx G); split; first by rewrite (mat_eq EB) mulmxA Q1 mul1mx.
move=> A B; rewrite EF Q1 mulmx1 -!mul_row_col hsubmxK; exact: normal_eq_rect.
Qed.

Theorem C31_least_squares_known n N q (lag : nat) cfg (S : 'M[C]_(n, N)) (U : 'M[C]_(q, N - lag)) (B0 : 'M[C]_(n, q)) f :
  fit np cfg S (Arr2 (Mat U)) (Some (existT _ q B0)) = Ok f -> dc_lag cfg = lag -> dc_tlsq cfg = 0 -> regular_fit np f ->
  kept np (past lag S) (dc_rank cfg) -> row_free (past lag S) ->
  forall A, frob2 (future lag S - (fitted_map np f *m past lag S + B0 *m U)) <= frob2 (future lag S - (A *m past lag S + B0 *m U)).
Proof.
move=> Hf Hlag Ht HR Hk F A; have HE := rf_eig HR.
have [_ [s [V [ES EA EM EW]]]] := known_parts Hlag Hf Ht Hk HE.
have [_ QQ _ _] := ES.
have QX : do_basis (ft_op f) *m adj (do_basis (ft_op f)) *m past lag S = past lag S by rewrite -mulmxA (XU ES).
have Q1 := full_proj F QX.
set G := (future lag S - B0 *m U) *m V *m diag_mx (recip s) in EA EM.
have AQ : G *m adj (do_basis (ft_op f)) *m do_basis (ft_op f) = do_basis (ft_op f) *m do_Atilde (ft_op f).
  by rewrite EA mulmxA Q1 mul1mx -mulmxA QQ mulmx1.
have EM' : do_modes (ft_op f) = G *m adj (do_basis (ft_op f)) *m do_basis (ft_op f) *m do_vecs (ft_op f).
  by rewrite -(mulmxA G) QQ mulmx1.
have [EF _ _] := recovered_by HR QQ EW AQ EM'.
rewrite EF Q1 mulmx1 ![_ *m past lag S + _]addrC !opprD !addrA; exact: normal_eq_rect.
Qed.

(** tlsq_rank has no effect when B is unknown *)
Theorem C31_tlsq_ignored n N cfg (S : 'M[C]_(n, N)) I z :
  fit np (DcCfg (dc_rank cfg) (dc_rank_omega cfg) z (dc_opt cfg) (dc_lag cfg)) S I None = fit np cfg S I None.
Proof. by []. Qed.
End C31.

(** A window step below the fitted one freezes the dynamics: three half steps without
    input leave the state at 1, where the system (A0 = 1/2) reaches 1/2 after two. *)
(** The amplitudes express the chosen snapshot (the first by default, [opt=z] counting from
    the end when negative) in the modes, in the least-squares sense. *)
Theorem C31_amplitudes (C : numClosedFieldType) (np : numpy C) n N cfg (S : 'M[C]_(n, N)) I B f (z : int) :
  fit np cfg S I B = Ok f -> dc_opt cfg = OptInt z \/ (dc_opt cfg = OptBool false /\ z = 0) ->
  exists j : 'I_N, (j = (if 0 <= z then z else N%:Z + z) :> int) /\
    (lstsq_ok np (do_modes (ft_op f)) (col j S) -> is_lstsq (do_modes (ft_op f)) (col j S) (ft_b f)).
Proof. exact: fit_amplitudes. Qed.

Theorem C31_fractional_dt_refuted : exists d,
  unknown_fit ex_npu ex_cfg ex_A ex_B ex_Sc ex_Uc ex_fu /\ row_free (future 1 ex_Sc) /\
  reconstructed_data ex_npu ex_fu (do_modes (ft_op ex_fu)) (do_eigs (ft_op ex_fu)) (Times 0 1 2%:R^-1 1)
    (Some (Arr2 (Mat (0 : 'M_(1, 2))))) = Ok d /\
  nth 0 d 2 = nth 0 d 0 /\ nth 0 d 2 <> ex_A *m nth 0 d 0.
Proof. exact: ex_frozen. Qed.

(** A window step of two fitted steps squares A but applies B once: with the input held
    at 1 the true state after two steps is 1, the reconstruction gives 3/4. *)
Theorem C31_double_dt_refuted : exists d,
  reconstructed_data ex_npu ex_fu (do_modes (ft_op ex_fu)) (do_eigs (ft_op ex_fu)) (Times 0 2%:R 2%:R 1)
    (Some (Arr2 (Mat (const_mx 1 : 'M_(1, 1))))) = Ok d /\
  let x0 := nth 0 d 0 in let u := const_mx 1 : 'cV[algC]_1 in
  nth 0 d 1 <> ex_A *m (ex_A *m x0 + ex_B *m u) + ex_B *m u.
Proof. exact: ex_double. Qed.

(** The hypotheses are met: x[k+1] = x[k]/2 + u[k]/2 with snapshots 1, 1, 0 and inputs 1, -1 *)
Example C31_known_example : known_fit ex_npk ex_cfg ex_A ex_B ex_Sc ex_Uc ex_fk /\ row_free (past 1 ex_Sc).
Proof. exact: ex_known. Qed.
Example C31_unknown_example : unknown_fit ex_npu ex_cfg ex_A ex_B ex_Sc ex_Uc ex_fu /\
  row_free (future 1 ex_Sc) /\ in_span (future 1 ex_Sc) (past 1 ex_Sc).
Proof. exact: ex_unknown. Qed.
(** an input of one column, given with B, passes fit and then cannot be replayed *)
Example C31_one_column : exists f, fit ex_npk ex_cfg ex_Sc (Arr2 (Mat (1 : 'M[algC]_1))) (Some (existT _ 1%N ex_B)) = Ok f /\
  reconstructed_data ex_npk f (do_modes (ft_op f)) (do_eigs (ft_op f)) (time_of_fit 3) None = Err RuntimeError.
Proof. by eexists; split; [rewrite /fit /= ex_amp; reflexivity | rewrite /reconstructed_data n_steps_fit]. Qed.

Print Assumptions C31_recursion.
Print Assumptions C31_default_input.
Print Assumptions C31_input_row.
Print Assumptions C31_refusals.
Print Assumptions C31_input_shape.
Print Assumptions C31_known_B.
Print Assumptions C31_unknown_B.
Print Assumptions C31_identifies.
Print Assumptions C31_simulates.
Print Assumptions C31_least_squares_unknown.
Print Assumptions C31_least_squares_known.
Print Assumptions C31_tlsq_ignored.
Print Assumptions C31_fractional_dt_refuted.
Print Assumptions C31_double_dt_refuted.
Print Assumptions C31_amplitudes.
