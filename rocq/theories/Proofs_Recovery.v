From mathcomp Require Import all_ssreflect all_algebra fingroup perm.
From Verif Require Import Py LinAlg Model_Operator Spec_Operator Proofs_OpCore Proofs_Operator Proofs_Operator2.
Set Implicit Arguments. Unset Strict Implicit. Unset Printing Implicit Defensive.
Import Order.TTheory GRing.Theory Num.Theory.
Local Open Scope ring_scope.

Section Proofs.
Variable C : numClosedFieldType.
Implicit Type np : numpy C.

(** ** Linear algebra of the recovery *)
Section Span.
Variables (n m r : nat) (X Y : 'M[C]_(n, m)) (U : 'M[C]_(n, r)) (s : 'rV[C]_r) (V : 'M[C]_(m, r)).
Hypothesis HS : exact_svd X U s V.
Variables (B : 'M[C]_n) (W : 'M[C]_r) (L : 'rV[C]_r).
Hypothesis HY : Y = B *m X.
Hypothesis HI : U *m adj U *m Y = Y.
Hypothesis HW : W \in unitmx.
Hypothesis HE : adj U *m Y *m V *m diag_mx (recip s) *m W = W *m diag_mx L.

Lemma BU : B *m U = U *m (adj U *m Y *m V *m diag_mx (recip s)).
Proof.
by rewrite -[in LHS](span_U HS) !mulmxA -HY HI.
Qed.
Lemma BUW : B *m (U *m W) = (U *m W) *m diag_mx L.
Proof. by rewrite mulmxA BU -mulmxA HE mulmxA. Qed.

Definition scaled (d : 'rV[C]_r) := U *m W *m diag_mx d.
Definition unscaled (d : 'rV[C]_r) := diag_mx (recip d) *m invmx W *m adj U.
Lemma diagC (d e : 'rV[C]_r) : diag_mx d *m diag_mx e = diag_mx e *m diag_mx d.
Proof. by rewrite !mulmx_diag; congr diag_mx; apply/rowP=> i; rewrite !mxE mulrC. Qed.
Lemma B_scaled d : B *m scaled d = scaled d *m diag_mx L.
Proof. by rewrite /scaled mulmxA BUW -!mulmxA (diagC L). Qed.
Lemma scaledK (d : 'rV[C]_r) : (forall j, d 0 j != 0) -> unscaled d *m scaled d = 1%:M.
Proof.
case: HS=> _ HU _ _ Hd; rewrite /scaled /unscaled -!mulmxA (mulmxA (adj U)) HU mul1mx.
by rewrite (mulmxA (invmx W)) mulVmx // mul1mx recip_diag.
Qed.
Lemma unscaledK (d : 'rV[C]_r) k (x : 'M[C]_(n, k)) : (forall j, d 0 j != 0) -> U *m adj U *m x = x -> scaled d *m (unscaled d *m x) = x.
Proof.
move=> Hd Hx; rewrite /scaled /unscaled -!mulmxA (mulmxA (diag_mx d)) diag_recip // mul1mx.
by rewrite (mulmxA W) mulmxV // mul1mx mulmxA.
Qed.
End Span.

(** ** A diagonalised linear system *)
Section Diag.
Variables (n r : nat) (B : 'M[C]_n) (Phi : 'M[C]_(n, r)) (L : 'rV[C]_r).
Hypothesis HB : B *m Phi = Phi *m diag_mx L.

Fixpoint mpow (k : nat) : 'M[C]_n := if k is k'.+1 then B *m mpow k' else 1%:M.
Definition dpow (k : nat) : 'rV[C]_r := \row_j (L 0 j) ^+ k.

Lemma mpow_modes k (c : 'cV[C]_r) : mpow k *m (Phi *m c) = Phi *m (diag_mx (dpow k) *m c).
Proof.
elim: k=> [|k IH] /=.
  rewrite mul1mx; congr (_ *m _); apply/colP=> i; rewrite mul_diag_mx !mxE expr0 mul1r //.
rewrite -mulmxA IH mulmxA HB -mulmxA; congr (_ *m _).
by apply/colP=> i; rewrite !mul_diag_mx !mxE exprS mulrA.
Qed.
End Diag.

Lemma pinv_predict np n r p (Phi : 'M[C]_(n, r)) L (c : 'M[C]_(r, p)) :
  pinv_ok np Phi -> row_full Phi -> predict np Phi L (Phi *m c) = Phi *m (diag_mx L *m c).
Proof.
by move=> HP HF; rewrite /predict -!mulmxA (mulmxA (np_pinv np Phi)) (pinv_left HP HF) mul1mx.
Qed.

Lemma predict_linear np n r p (Phi : 'M[C]_(n, r)) L (a : C) (x y : 'M[C]_(n, p)) :
  predict np Phi L (a *: x + y) = a *: predict np Phi L x + predict np Phi L y.
Proof. by rewrite /predict mulmxDr -scalemxAr. Qed.

Lemma predict_kernel np n r p (Phi : 'M[C]_(n, r)) L (x : 'M[C]_(n, p)) :
  np_pinv np Phi *m x = 0 -> predict np Phi L x = 0.
Proof. by move=> H; rewrite /predict -!mulmxA H !mulmx0. Qed.

(** with the Moore-Penrose contract: everything orthogonal to the modes is annihilated *)
Lemma predict_orth np n r p (Phi : 'M[C]_(n, r)) L (x : 'M[C]_(n, p)) :
  pinv_ok np Phi -> adj Phi *m x = 0 -> predict np Phi L x = 0.
Proof.
case=> P1 P2 P3 P4 H; apply: predict_kernel.
by rewrite -P2 -mulmxA -mulmxA (mulmxA Phi) -P3 adjM -mulmxA H !mulmx0.
Qed.

(** ** Index and anchor *)
Lemma col_index_anchor N z (k : 'I_N) : col_index N z = Some k -> anchor (OptInt z) N = k%:Z.
Proof.
rewrite /anchor; case: z=> a /=.
  by case: insubP=> // i _ E [<-]; rewrite -E.
case: leqP=> // Ha; case: insubP=> // i _ E [<-]; rewrite E NegzE -subzn //.
Qed.

Lemma fit_inv np n N m cfg cfg' (S : 'M[C]_(n, N)) (X Y : 'M[C]_(n, m)) f :
  fit_pair np cfg S X Y = (cfg', Ok f) ->
  let XY := compute_tlsq np X Y (d_tlsq cfg) in
  [/\ compute_operator np (d_op cfg) XY.1 XY.2 = (d_op cfg', Ok (df_op f)),
      amplitudes np (c_exact (d_op cfg)) (d_opt cfg) S X (df_op f) = Ok (df_b f),
      d_tlsq cfg' = d_tlsq cfg & d_opt cfg' = d_opt cfg].
Proof.
rewrite /fit_pair; case E: (compute_operator _ _ _ _) => [c [o|x]] //= [<-].
by case Ea: (amplitudes _ _ _ _ _ _) => [b|x] //= [<-] /=.
Qed.

Lemma col'_lift n m (S : 'M[C]_(n, m.+1)) k j : col j (col' k S) = col (lift k j) S.
Proof. by apply/colP=> i; rewrite !mxE. Qed.


Lemma linear_pair n m (B : 'M[C]_n) (S : 'M[C]_(n, m.+1)) : linear_data B S -> col' ord0 S = B *m col' ord_max S.
Proof.
move=> H; apply/matrixP=> i j.
have E : lift ord0 j = (lift ord_max j).+1 :> nat by rewrite lift0 lift_max.
have := congr1 (fun c : 'cV_n => c i 0) (H _ _ E); rewrite !mxE => ->.
by apply: eq_bigr=> k _; rewrite !mxE.
Qed.

Lemma linear_pow n m (B : 'M[C]_n) (S : 'M[C]_(n, m.+1)) : linear_data B S ->
  forall k : 'I_m.+1, col k S = mpow B k *m col ord0 S.
Proof.
move=> H [k]; elim: k=> [|k IH] Hk /=.
  by rewrite mul1mx; congr col; apply/val_inj.
rewrite -mulmxA -(IH (ltnW Hk)); exact: H.
Qed.

Lemma state_mpow n (B : 'M[C]_n) x k : state B x k = mpow B k *m x.
Proof. by elim: k=> [|k IH] /=; rewrite ?mul1mx // IH mulmxA. Qed.

(** ** The modes diagonalise the system on the span of the data *)
Lemma recovery_core np n m cfg cfg' B (S : 'M[C]_(n, m.+1)) f : recoverable np cfg cfg' B S f ->
  let Phi := of_modes (df_op f) in
  [/\ B *m Phi = Phi *m diag_mx (of_eigs (df_op f)), row_full Phi & forall k, exists c, col k S = Phi *m c].
Proof.
case=> -[HF Ht Hfb Htik Hrs HL Hsvd [HX Hs] HE HU Hnz] [c0 Hc0] Phi.
have [HO Ha _ _] := fit_inv HF; move: HO; rewrite /compute_tlsq Ht eqxx /= => HO.
have HY := linear_pair HL.
have [Hw _ Hm HA Hsv] := operator_facts HO Hrs HE.
have [UU VV _ _ _] := Hsv Hsvd.
have HS : exact_svd (col' ord_max S) (of_U (df_op f)) (of_s (df_op f)) (of_V (df_op f)) by split.
have span k : of_U (df_op f) *m adj (of_U (df_op f)) *m col k S = col k S.
  case: (unliftP ord_max k)=> [k' ->|->].
    by rewrite -col'_lift colE mulmxA -(mulmxA _ (adj _)) (XU HS).
  by rewrite Hc0 mulmxA -(mulmxA _ (adj _)) (XU HS).
have HI : of_U (df_op f) *m adj (of_U (df_op f)) *m col' ord0 S = col' ord0 S.
  apply/matrixP=> i j; have := congr1 (fun c : 'cV_n => c i 0) (span (lift ord0 j)); rewrite !mxE => <-.
  by apply: eq_bigr=> k _; rewrite !mxE.
have HA' := HA Hfb; rewrite Htik /= in Hm HA'.
have HWu := operator_unit HO Hrs HU.
rewrite HA' in Hw.
pose d := if c_exact (d_op cfg) then of_eigs (df_op f) else const_mx 1.
have Hd j : d 0 j != 0.
  by rewrite /d; case: ifP Hnz=> [_|_ _]; [exact | rewrite mxE oner_neq0].
have HP : Phi = scaled (of_U (df_op f)) (unscale (c_rescale (d_op cfg')) (of_vecs (df_op f))) d.
  rewrite /Phi Hm /scaled /d; case: ifP=> _; last by rewrite diag_const_mx mulmx1.
  by rewrite -[RHS]mulmxA -Hw !mulmxA HI.
rewrite HP; split.
- exact: (B_scaled HS HY HI Hw).
- apply/row_fullP; exists (unscaled (of_U (df_op f)) (unscale (c_rescale (d_op cfg')) (of_vecs (df_op f))) d).
  exact: (scaledK HS HWu Hd).
- move=> k; exists (unscaled (of_U (df_op f)) (unscale (c_rescale (d_op cfg')) (of_vecs (df_op f))) d *m col k S).
  by rewrite (unscaledK HWu Hd).
Qed.

Theorem recovery_predict np n m cfg cfg' B (S : 'M[C]_(n, m.+1)) f : recoverable np cfg cfg' B S f ->
  pinv_ok np (of_modes (df_op f)) ->
  forall k k' : 'I_m.+1, k' = k.+1 :> nat ->
  predict np (of_modes (df_op f)) (of_eigs (df_op f)) (col k S) = col k' S.
Proof.
move=> R HP k k' E; have [HB HF HC] := recovery_core R; have [c Hc] := HC k.
rewrite (rec_linear R E) Hc pinv_predict // mulmxA mulmxA -HB //.
Qed.

(** the amplitudes are the coordinates of the anchoring snapshot *)
Lemma modes_state n r (B : 'M[C]_n) (Phi : 'M[C]_(n, r)) L (b : 'cV[C]_r) k :
  B *m Phi = Phi *m diag_mx L -> state B (Phi *m b) k = Phi *m (diag_mx (dpow L k) *m b).
Proof. by move=> H; rewrite state_mpow (mpow_modes H). Qed.

Lemma linear_state n m (B : 'M[C]_n) (S : 'M[C]_(n, m.+1)) (k : 'I_m.+1) : linear_data B S ->
  col k S = state B (col ord0 S) k.
Proof. by move=> H; rewrite state_mpow (linear_pow H). Qed.

Lemma dyn_col np r (L : 'rV[C]_r) b opt T t0 dt N (ts : 'I_N -> rat) (i : 'I_N) (k : nat) (a : nat) :
  power_ok np -> dt != 0 -> ts i = t0 + k%:R * dt -> anchor opt T = a%:Z ->
  ((forall j, L 0 j != 0) \/ (a <= k)%N) ->
  col i (dynamics np L b opt T t0 dt ts) = \col_j (L 0 j ^ (k%:Z - a%:Z) * b j 0).
Proof.
move=> HP Hdt Ht Ha Hz; apply/colP=> j; rewrite !mxE Ha Ht [t0 + _]addrC addrK mulfK //.
have -> : k%:R - a%:Z%:~R = (k%:Z - a%:Z)%:~R :> rat by rewrite rmorphB.
rewrite HP //; case: Hz=> [H|H]; [left; exact: H | right].
by rewrite subr_ge0 lez_nat.
Qed.

Lemma reconstruction_col n r N (Phi : 'M[C]_(n, r)) (D : 'M[C]_(r, N)) i :
  col i (reconstruction Phi D) = Phi *m col i D.
Proof. by rewrite /reconstruction !colE mulmxA. Qed.

Lemma coords_recover n r (B : 'M[C]_n) (Phi : 'M[C]_(n, r)) (L : 'rV[C]_r) (b c0 : 'cV[C]_r) (a k : nat) :
  row_full Phi -> B *m Phi = Phi *m diag_mx L ->
  Phi *m b = state B (Phi *m c0) a -> ((forall j, L 0 j != 0) \/ (a <= k)%N) ->
  Phi *m (\col_j (L 0 j ^ (k%:Z - a%:Z) * b j 0)) = state B (Phi *m c0) k.
Proof.
move=> HF HB; rewrite !(modes_state _ _ HB) => /(full_col_cancel HF) -> Hz; congr (_ *m _).
apply/colP=> j; rewrite !mul_diag_mx !mxE mulrA; congr (_ * _).
case: Hz=> H; last by rewrite subzn // -exprnP -exprD subnK.
by rewrite !exprnP -expfzDr // subrK.
Qed.

Lemma snap_range n r (Phi : 'M[C]_(n, r)) (y : 'cV[C]_n) b : (exists c, y = Phi *m c) -> is_lstsq Phi y b -> Phi *m b = y.
Proof. by case=> c E H; apply: (lstsq_range H E). Qed.

(** amplitudes from snapshot number [opt] (or the first one) *)
Theorem recovery_index np n m cfg cfg' B (S : 'M[C]_(n, m.+1)) f : recoverable np cfg cfg' B S f ->
  d_opt cfg <> OptBool true ->
  (forall k, lstsq_ok np (of_modes (df_op f)) (col k S)) -> power_ok np ->
  forall t0 dt N (ts : 'I_N -> rat) (i : 'I_N) (k : nat), dt != 0 -> ts i = t0 + k%:R * dt ->
  ((forall j, of_eigs (df_op f) 0 j != 0) \/ anchor (d_opt cfg) m.+1 <= k%:Z) ->
  col i (reconstruction (of_modes (df_op f))
           (dynamics np (of_eigs (df_op f)) (df_b f) (d_opt cfg) m.+1 t0 dt ts)) = state B (col ord0 S) k.
Proof.
move=> R Hopt HL HP t0 dt N ts i k Hdt Ht Hz.
have [_ Ha _ _] := fit_inv (rec_fit R); have [HB HF HC] := recovery_core R.
have [a [Hanc Hb]] : exists a : 'I_m.+1, anchor (d_opt cfg) m.+1 = a%:Z /\ df_b f = np_lstsq np (of_modes (df_op f)) (col a S).
  move: Ha; rewrite /amplitudes; case: (d_opt cfg) Hopt => [[]|z] // _.
    case E: (col_index _ _)=> [a|] // [<-]; exists a; split=> //; by rewrite -(col_index_anchor E).
  by case E: (col_index _ _)=> [a|] // [<-]; exists a; split=> //; rewrite -(col_index_anchor E).
have [c0 Hc0] := HC ord0.
have Hz' : (forall j, of_eigs (df_op f) 0 j != 0) \/ (a <= k)%N.
  by case: Hz=> [|H]; [left | right; rewrite Hanc lez_nat in H].
rewrite reconstruction_col (dyn_col _ HP Hdt Ht Hanc Hz') Hc0; apply: coords_recover=> //.
by rewrite -Hc0 -(linear_state _ (rec_linear R)) Hb; apply: snap_range (HC a) (HL a).
Qed.

(** optimal amplitudes with exact modes *)
Lemma optimal_normal n r N (Phi : 'M[C]_(n, r)) (L : 'rV[C]_r) (b : 'cV[C]_r) (S : 'M[C]_(n, N)) :
  (forall k, col k S = Phi *m (diag_mx (dpow L k) *m b)) -> opt_P Phi L N *m b = opt_q_exact Phi L S.
Proof.
move=> H; apply/colP=> i; rewrite !mxE.
have HSk k t : S k t = \sum_j Phi k j * (L 0 j ^+ t * b j 0).
  have := congr1 (fun c : 'cV_n => c k 0) (H t); rewrite !mxE => ->.
  by apply: eq_bigr=> j _; rewrite mul_diag_mx !mxE.
pose F j k t := (Phi k i)^* * Phi k j * ((L 0 i ^+ t)^* * L 0 j ^+ t) * b j 0.
transitivity (\sum_j \sum_k \sum_(t < N) F j k t).
- apply: eq_bigr=> j _; rewrite !mxE rmorph_sum mulr_suml mulr_suml; apply: eq_bigr=> k _.
  rewrite mulr_sumr mulr_suml; apply: eq_bigr=> t _.
  by rewrite !adjE !mxE rmorphM /= conjCK.
rewrite rmorph_sum exchange_big; apply: eq_bigr=> k _ /=.
rewrite rmorphM !mxE rmorph_sum mulr_suml exchange_big; apply: eq_bigr=> t _ /=.
rewrite adjE !mxE rmorphM /= conjCK HSk mulr_sumr mulr_suml; apply: eq_bigr=> j _.
by rewrite /F [_ * (Phi k i)^*]mulrC -!mulrA; congr (_ * _); rewrite mulrCA.
Qed.

Theorem recovery_optimal np n m cfg cfg' B (S : 'M[C]_(n, m.+1)) f : recoverable np cfg cfg' B S f ->
  d_opt cfg = OptBool true -> c_exact (d_op cfg) ->
  (let P := opt_P (of_modes (df_op f)) (of_eigs (df_op f)) m.+1 in
   forall q, P \in unitmx -> solve_ok np P q) -> power_ok np ->
  forall t0 dt N (ts : 'I_N -> rat) (i : 'I_N) (k : nat), dt != 0 -> ts i = t0 + k%:R * dt ->
  col i (reconstruction (of_modes (df_op f))
           (dynamics np (of_eigs (df_op f)) (df_b f) (d_opt cfg) m.+1 t0 dt ts)) = state B (col ord0 S) k.
Proof.
move=> R Hopt Hex HSo HP t0 dt N ts i k Hdt Ht.
have [_ Ha _ _] := fit_inv (rec_fit R); have [HB HF HC] := recovery_core R.
have [c0 Hc0] := HC ord0.
have Hb : df_b f = c0.
  move: Ha; rewrite /amplitudes Hopt Hex; case: ifP=> // HPu [<-].
  rewrite -(optimal_normal (b := c0)); last first.
    by move=> k'; rewrite (linear_state k' (rec_linear R)) Hc0 (modes_state _ _ HB).
  by rewrite -[LHS](mulKmx HPu) HSo // mulKmx.
have Hanc : anchor (d_opt cfg) m.+1 = 0%N%:Z by rewrite Hopt.
rewrite reconstruction_col (dyn_col _ HP Hdt Ht Hanc (or_intror (leq0n k))) Hc0 Hb; apply: coords_recover=> //.
by right.
Qed.
End Proofs.
