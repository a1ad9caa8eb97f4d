From mathcomp Require Import all_ssreflect all_algebra fingroup perm.
From Verif Require Import Py LinAlg Model_Operator Spec_Operator Proofs_OpCore Proofs_Operator Proofs_Operator2 Proofs_Recovery Model_DMDc Spec_DMDc.
Set Implicit Arguments. Unset Strict Implicit. Unset Printing Implicit Defensive.
Import Order.TTheory GRing.Theory Num.Theory.
Local Open Scope ring_scope.

Section Proofs.
Variable C : numClosedFieldType.
Implicit Type np : numpy C.

(** ** The recursion *)
Lemma advance_spec n q (A : 'M[C]_n) (B : 'M[C]_(n, q)) us : forall i data, (i < size data)%N ->
  let d := advance A B i us data in
  [/\ size d = (size data + size us)%N, forall j, (j < size data)%N -> nth 0 d j = nth 0 data j &
      forall k, (k < size us)%N -> nth 0 d (size data + k) = A *m nth 0 d (i + k) + B *m nth 0 us k].
Proof.
elim: us=> [|u us IH] i data Hi /=; first by rewrite addn0.
set x := A *m _ + _; have [|S1 S2 S3] := IH i.+1 (rcons data x); first by rewrite size_rcons.
rewrite size_rcons in S1 S2 S3; split.
- by rewrite S1 addSnnS.
- by move=> j Hj; rewrite S2 ?nth_rcons ?Hj // ltnS ltnW.
- case=> [|k] Hk.
    by rewrite !addn0 S2 // nth_rcons ltnn eqxx S2 ?nth_rcons ?Hi // ltnS ltnW.
  by rewrite -!addSnnS S3.
Qed.

Lemma driven_unique n q (A : 'M[C]_n) (B : 'M[C]_(n, q)) lag us d e :
  (0 < lag)%N -> size d = (lag + size us)%N -> size e = (lag + size us)%N ->
  (forall j, (j < lag)%N -> nth 0 d j = nth 0 e j) ->
  driven A B lag us d -> driven A B lag us e -> d = e.
Proof.
move=> Hl Sd Se Hi Dd De; apply: (@eq_from_nth _ 0); first by rewrite Sd Se.
rewrite Sd; elim/ltn_ind=> j IH Hj; case: (ltnP j lag)=> H; first exact: Hi.
have Hk : (j - lag < size us)%N by rewrite ltn_subLR.
by have := Dd _ Hk; have := De _ Hk; rewrite subnK // => -> ->; rewrite IH // ?ltn_subrL ?Hl ?(leq_trans Hl H) // (leq_ltn_trans (leq_subr _ _) Hj).
Qed.

Lemma size_columns n m (M : 'M[C]_(n, m)) : size (columns M) = m.
Proof. by rewrite size_map size_enum_ord. Qed.
Lemma nth_columns n m (M : 'M[C]_(n, m)) (j : 'I_m) : nth 0 (columns M) j = col j M.
Proof. by rewrite (nth_map j) ?size_enum_ord // nth_ord_enum. Qed.

Lemma cols_from_col n N (S : 'M[C]_(n, N)) a k (j : 'I_k) : (a + k <= N)%N ->
  col j (cols_from S a k) = nth 0 (columns S) (a + j).
Proof.
move=> H; have Hj : (a + j < N)%N by rewrite (leq_trans _ H) // ltn_add2l.
rewrite (nth_columns S (Ordinal Hj)); apply/colP=> i; rewrite !mxE insubT //=.
Qed.

(** ** Windows *)
Lemma floorq_int (z : int) : floorq z%:~R = z.
Proof. by rewrite /floorq numq_int denq_int divz1. Qed.
Lemma n_steps_fit N : n_steps (time_of_fit N) = N.
Proof.
rewrite /n_steps /arange_len /ceilq /= subr0 subrK divr1.
have -> : - (N%:R : rat) = (- (N%:Z))%:~R by rewrite rmorphN.
by rewrite floorq_int opprK.
Qed.

Lemma recon_spec np n N (f : dc_fit C n N) r (Phi : 'M[C]_(n, r)) L t p (V : 'M[C]_(ft_q f, p)) :
  (0 < ft_lag f <= N)%N -> n_steps t = (ft_lag f + p)%N ->
  exists d, reconstructed_data np f Phi L t (Some (Arr2 (Mat V))) = Ok d /\
  [/\ size d = (ft_lag f + p)%N, forall j, (j < ft_lag f)%N -> nth 0 d j = nth 0 (columns (ft_S f)) j &
      driven (step_matrix np t Phi L) (ft_B f) (ft_lag f) (columns V) d].
Proof.
move=> /andP[Hl HN] Ht; rewrite /reconstructed_data /= Ht PoszD addrAC subrr add0r eqxx /=.
rewrite /reconstruct_from ltnNge HN /= eqxx /= conform_mx_id.
have E j : (j < ft_lag f)%N -> nth 0 (mat_cols (cols_from (ft_S f) 0 (ft_lag f))) j = nth 0 (columns (ft_S f)) j.
  by move=> Hj; rewrite (nth_columns _ (Ordinal Hj)) cols_from_col.
have Sz : size (mat_cols (cols_from (ft_S f) 0 (ft_lag f))) = ft_lag f by rewrite size_columns.
case: eqP=> [p0|_].
  exists (mat_cols (cols_from (ft_S f) 0 (ft_lag f))); split=> //; split=> //; first by rewrite Sz p0 addn0.
  by move=> k Hk; exfalso; move: Hk; rewrite size_columns p0.
have [|S1 S2 S3] := @advance_spec n _ (step_matrix np t Phi L) (ft_B f) (columns V) 0 (mat_cols (cols_from (ft_S f) 0 (ft_lag f))).
  by rewrite Sz.
rewrite Sz in S1 S2 S3; eexists; split; first reflexivity; split.
- by rewrite S1 size_columns.
- by move=> j Hj; rewrite S2 // E.
- by move=> k Hk; rewrite addnC S3 // add0n.
Qed.

Lemma recon_default np n N (f : dc_fit C n N) r (Phi : 'M[C]_(n, r)) L t :
  reconstructed_data np f Phi L t None = reconstructed_data np f Phi L t (Some (Arr2 (ft_I f))).
Proof. by []. Qed.

(** ** Exact recovery *)
(** the step matrix built on U W Lambda *)
Lemma pinv_factor n r (U : 'M[C]_(n, r)) (M : 'M[C]_r) : adj U *m U = 1%:M -> M \in unitmx ->
  is_pinv (U *m M) (invmx M *m adj U).
Proof.
move=> HU HM; have E : invmx M *m adj U *m (U *m M) = 1%:M by rewrite -!mulmxA (mulmxA (adj U)) HU mul1mx mulVmx.
have F : U *m M *m (invmx M *m adj U) = U *m adj U by rewrite -!mulmxA (mulmxA M) mulmxV // mul1mx.
split; rewrite ?F ?E ?adj1 ?mul1mx //; last by rewrite adjM adjK.
by rewrite -!mulmxA (mulmxA (adj U)) HU mul1mx.
Qed.

Lemma diag_unit r (L : 'rV[C]_r) : (forall j, L 0 j != 0) -> diag_mx L \in unitmx.
Proof. by move=> H; have [] := mulmx1_unit (diag_recip H). Qed.

Lemma step_factor np t n r (U : 'M[C]_(n, r)) (At W : 'M[C]_r) (L : 'rV[C]_r) (Phi : 'M[C]_(n, r)) :
  power_ok np -> pinv_ok np Phi -> tm_dt0 t != 0 -> tm_dt t = tm_dt0 t ->
  adj U *m U = 1%:M -> W \in unitmx -> (forall j, L 0 j != 0) ->
  At *m W = W *m diag_mx L -> Phi = U *m (W *m diag_mx L) ->
  step_matrix np t Phi L = U *m At *m adj U.
Proof.
move=> HP HV H0 Hd HU HW HL HE EP; rewrite /step_matrix Hd divff //.
have -> : floorq 1 = 1 by exact: (floorq_int 1).
have -> : (\row_j np_power np (L 0 j) 1%:~R) = L.
  by apply/rowP=> j; rewrite mxE HP ?expr1z //; left.
have HM : W *m diag_mx L \in unitmx by rewrite unitmx_mul HW diag_unit.
have -> : np_pinv np Phi = invmx (W *m diag_mx L) *m adj U.
  by apply: (pinv_unique HV); rewrite EP; exact: pinv_factor.
rewrite EP -!mulmxA; congr (_ *m _); rewrite !mulmxA; congr (_ *m _); rewrite -!mulmxA (mulmxA W).
have -> : W *m diag_mx L *m (diag_mx L *m invmx (W *m diag_mx L)) = At *m ((W *m diag_mx L) *m invmx (W *m diag_mx L)).
  by rewrite !mulmxA HE.
by rewrite mulmxV // mulmx1.
Qed.

Lemma eig_plain np cfg r (A : 'M[C]_r) e v : eigenquantities np (op_of C cfg) A = Ok (e, v) -> eig_ok np A ->
  A *m v = v *m diag_mx e.
Proof.
case/sorted_spec=> Ah [[<-] [p [_ _ _ /(_ erefl) [-> ->]]]] [H _]; exact: H.
Qed.

Lemma compute_svdE np n m (X : 'M[C]_(n, m)) rk :
  let r := np_rank np (np_svd np X).1.2 n m rk in
  compute_svd np X rk = SvdOut (take_cols (np_svd np X).1.1 r) (take_cols (np_svd np X).1.2 r) (take_cols (adj (np_svd np X).2) r).
Proof. by rewrite /compute_svd /svd_trunc; case: (np_svd np X)=> [[U s] Vh]. Qed.

Lemma kept_exact np n m (X : 'M[C]_(n, m)) rk : kept np X rk ->
  exact_svd X (sv_U (compute_svd np X rk)) (sv_s (compute_svd np X rk)) (sv_V (compute_svd np X rk)).
Proof.
case=> H [E N]; split=> //; rewrite compute_svdE /=.
  by rewrite take_colsE; apply: (trunc_UU _ H); exact: leq_ord.
by rewrite take_colsE; apply: (trunc_VV _ H); exact: leq_ord.
Qed.
End Proofs.

Section Recovery.
Variable C : numClosedFieldType.
Implicit Type np : numpy C.

Lemma past_col n N lag (S : 'M[C]_(n, N)) (j : 'I_(N - lag)) : (lag <= N)%N -> col j (past lag S) = nth 0 (columns S) j.
Proof. by move=> H; rewrite cols_from_col // add0n leq_subr. Qed.
Lemma future_col n N lag (S : 'M[C]_(n, N)) (j : 'I_(N - lag)) : (lag <= N)%N -> col j (future lag S) = nth 0 (columns S) (j + lag).
Proof. by move=> H; rewrite cols_from_col ?subnKC // addnC. Qed.

Lemma driven_mx n N q lag (A : 'M[C]_n) (B : 'M[C]_(n, q)) (S : 'M[C]_(n, N)) (U : 'M[C]_(q, N - lag)) : (lag <= N)%N ->
  driven A B lag (columns U) (columns S) -> future lag S = A *m past lag S + B *m U.
Proof.
move=> H D; apply/matrixP=> i j; have := D j; rewrite size_columns ltn_ord => /(_ isT).
rewrite -(future_col S j H) -(past_col S j H) nth_columns => /colP /(_ i).
rewrite [LHS]mxE => ->; rewrite !mxE; congr (_ + _); by apply: eq_bigr=> k _; rewrite !mxE.
Qed.

(** the linear algebra common to both branches *)
Lemma step_fitted np n N (f : dc_fit C n N) t : regular_fit np f -> tm_dt0 t != 0 -> tm_dt t = tm_dt0 t ->
  step_matrix np t (do_modes (ft_op f)) (do_eigs (ft_op f)) = fitted_map np f.
Proof.
case=> _ _ HN _ HP H0 Hd; rewrite /step_matrix Hd divff // /fitted_map.
have -> : floorq 1 = 1 by exact: (floorq_int 1).
by congr (_ *m diag_mx _ *m _); apply/rowP=> j; rewrite mxE HP ?expr1z //; left.
Qed.

Lemma recovered_by np n N (f : dc_fit C n N) (A0 : 'M[C]_n) : regular_fit np f ->
  let o := ft_op f in let Q := do_basis o in
  adj Q *m Q = 1%:M -> do_Atilde o *m do_vecs o = do_vecs o *m diag_mx (do_eigs o) ->
  A0 *m Q = Q *m do_Atilde o -> do_modes o = A0 *m Q *m do_vecs o ->
  [/\ fitted_map np f = A0 *m (Q *m adj Q),
      A0 *m do_modes o = do_modes o *m diag_mx (do_eigs o) & row_full (do_modes o)].
Proof.
move=> H o Q QQ EW AQ EM; have [_ HW HN HP Hpow] := H.
have EP : do_modes o = Q *m (do_vecs o *m diag_mx (do_eigs o)) by rewrite EM AQ -mulmxA EW.
split.
- rewrite -(@step_fitted _ _ _ _ (Times 0 0 1 1)) //.
  by rewrite (step_factor Hpow HP _ _ QQ HW HN EW EP) // -AQ mulmxA.
- rewrite EM -!mulmxA; congr (_ *m _); rewrite (mulmxA A0) AQ -!mulmxA; congr (_ *m _).
  by rewrite EW.
- apply/row_fullP; exists (invmx (do_vecs o *m diag_mx (do_eigs o)) *m adj Q).
  have HM : do_vecs o *m diag_mx (do_eigs o) \in unitmx by rewrite unitmx_mul HW diag_unit.
  by rewrite EP -!mulmxA (mulmxA (adj Q)) QQ mul1mx mulVmx.
Qed.

Lemma self_reconstruction np n N q lag cfg A0 B0 (S : 'M[C]_(n, N)) (U : 'M[C]_(q, N - lag)) B f :
  controlled_fit np cfg A0 B0 S U B f -> ft_lag f = lag -> (0 < lag)%N -> ft_S f = S -> ft_I f = Mat U ->
  existT (fun q => 'M[C]_(n, q)) (ft_q f) (ft_B f) = existT _ q B0 ->
  (forall k, (k < N - lag)%N -> fitted_map np f *m nth 0 (columns S) k
      = A0 *m nth 0 (columns S) k) ->
  reconstructed_data np f (do_modes (ft_op f)) (do_eigs (ft_op f)) (time_of_fit N) None = Ok (columns S).
Proof.
move=> H; have [_ _ HN HD HR] := H; clear H.
move=> Hfl Hl HS HI EB Hst; have := step_fitted (t := time_of_fit N) HR isT erefl; move: Hst=> + Est; rewrite -Est => {HR Est}.
case: f Hfl HS HI EB=> l S' I q' B' o b /= -> -> -> EB Hst.
rewrite recon_default.
set Phi := do_modes o; set L := do_eigs o.
have E : q' = q by move: (congr1 (@projT1 _ _) EB).
subst q'; have {}EB : B' = B0 by apply: (Eqdep_dec.inj_pair2_eq_dec _ PeanoNat.Nat.eq_dec) EB.
subst B'.
have [|| d [Hd [S1 S2 S3]]] := @recon_spec C np n N (DcFit lag S (Mat U) B0 b) _ Phi L (time_of_fit N) (N - lag) U.
  by rewrite /= Hl.
  by rewrite n_steps_fit /= subnKC.
rewrite Hd; congr Ok; rewrite /= in S1 S2 S3.
apply: (@driven_unique _ _ _ (step_matrix np (time_of_fit N) Phi L) B0 lag (columns U)) => //.
- by rewrite size_columns.
- by rewrite !size_columns subnKC.
- move=> k Hk; rewrite Hst ?HD //; by rewrite size_columns in Hk.
Qed.

(** ** The two branches of fit *)
Lemma fit_known np n N q (lag : nat) cfg (S : 'M[C]_(n, N)) (U : 'M[C]_(q, N - lag)) (B0 : 'M[C]_(n, q)) f :
  dc_lag cfg = lag -> fit np cfg S (Arr2 (Mat U)) (Some (existT _ q B0)) = Ok f ->
  let XY := compute_tlsq np (past lag S) (future lag S) (dc_tlsq cfg) in
  exists o, compute_operator np (op_of C cfg) XY.1 (XY.2 - B0 *m U) = (op_of C cfg, Ok o) /\ (0 < lag)%N /\
  exists b, f = @DcFit C n N lag S (Mat U) q B0 (DcOp (of_U o) (of_Atilde o) (of_eigs o) (of_vecs o) (of_modes o)) b.
Proof.
rewrite /fit => ->; case: lag U=> [|l] U //; rewrite /known_operator /= eqxx /= !conform_mx_id.
rewrite /minus_bcast eqxx /= conform_mx_id.
case E: (compute_operator _ _ _ _)=> [c [o|x]] //=.
case: (dc_amplitudes _ _ _ _)=> [b|x] //= [<-]; exists o; split; last by split=> //; exists b.
by have [A [e [v [_ -> _ _]]]] := compute_operator_inv E.
Qed.

Lemma unknown_operatorE np cfg n m q (X Y : 'M[C]_(n, m)) (U : 'M[C]_(q, m)) :
  let p := compute_svd np (col_mx X U) (dc_rank_omega cfg) in
  let Ur := sv_U (compute_svd np Y (dc_rank cfg)) in
  let F := Y *m sv_V p *m diag_mx (recip (sv_s p)) in
  let At := adj Ur *m (F *m adj (usubmx (sv_U p))) *m Ur in
  unknown_operator np cfg X Y (Mat U) =
  (let! ew := eigenquantities np (op_of C cfg) At in
   Ok (DcOp Ur At ew.1 ew.2 (F *m adj (usubmx (sv_U p)) *m Ur *m ew.2), Ur *m (adj Ur *m (F *m adj (dsubmx (sv_U p)))))).
Proof. by rewrite /unknown_operator /= eqxx /= !conform_mx_id !mulmxA. Qed.

Lemma fit_unknown np n N q (lag : nat) cfg (S : 'M[C]_(n, N)) (U : 'M[C]_(q, N - lag)) f :
  dc_lag cfg = lag -> fit np cfg S (Arr2 (Mat U)) None = Ok f ->
  let X := past lag S in let Y := future lag S in
  let p := compute_svd np (col_mx X U) (dc_rank_omega cfg) in
  let Ur := sv_U (compute_svd np Y (dc_rank cfg)) in
  let F := Y *m sv_V p *m diag_mx (recip (sv_s p)) in
  let At := adj Ur *m (F *m adj (usubmx (sv_U p))) *m Ur in
  exists e v, eigenquantities np (op_of C cfg) At = Ok (e, v) /\ (0 < lag)%N /\
  exists b, f = @DcFit C n N lag S (Mat U) q (Ur *m (adj Ur *m (F *m adj (dsubmx (sv_U p)))))
     (DcOp Ur At e v (F *m adj (usubmx (sv_U p)) *m Ur *m v)) b.
Proof.
rewrite /fit => ->; case: lag U=> [|l] U //; rewrite [atleast_2d _]/= unknown_operatorE.
rewrite -/(past l.+1 S) -/(future l.+1 S).
case: (eigenquantities _ _ _)=> [[e v]|x] //; rewrite /bind [fst _]/= [snd _]/=.
case: (dc_amplitudes _ _ _ _)=> [b|x] //= [<-]; exists e, v; split=> //; split=> //; by exists b.
Qed.
End Recovery.

Section Main.
Variable C : numClosedFieldType.
Implicit Type np : numpy C.

(** ** What the two branches store *)
Lemma known_parts np n N q (lag : nat) cfg (S : 'M[C]_(n, N)) (U : 'M[C]_(q, N - lag)) (B0 : 'M[C]_(n, q)) f :
  dc_lag cfg = lag -> fit np cfg S (Arr2 (Mat U)) (Some (existT _ q B0)) = Ok f -> dc_tlsq cfg = 0 ->
  kept np (past lag S) (dc_rank cfg) -> eig_ok np (do_Atilde (ft_op f)) ->
  let o := ft_op f in let Q := do_basis o in
  [/\ ft_lag f = lag, (0 < lag)%N, ft_S f = S, ft_I f = Mat U &
      existT (fun q => 'M[C]_(n, q)) (ft_q f) (ft_B f) = existT _ q B0] /\
  exists s V, let F := (future lag S - B0 *m U) *m V *m diag_mx (recip s) in
  [/\ exact_svd (past lag S) Q s V, do_Atilde o = adj Q *m F, do_modes o = F *m do_vecs o &
      do_Atilde o *m do_vecs o = do_vecs o *m diag_mx (do_eigs o)].
Proof.
move=> Hlag Hf Ht Hk HE; have ES := kept_exact Hk.
have [o [Ho [Hl [b Ef]]]] := fit_known Hlag Hf.
move: Ho HE; rewrite Ht /compute_tlsq eqxx Ef /= => Ho HE; split=> //.
have [A [e [v [Hfb _ Hev Eo]]]] := compute_operator_inv Ho.
move: Hfb; rewrite forward_backwardE /= => -[EA].
rewrite compute_svdE /= in ES; rewrite Eo /= in HE *.
eexists; eexists; split; first exact: ES.
- by rewrite -EA ls_op /= !mulmxA.
- by rewrite modes_exact.
- exact: (eig_plain Hev).
Qed.

Lemma unknown_parts np n N q (lag : nat) cfg (S : 'M[C]_(n, N)) (U : 'M[C]_(q, N - lag)) f :
  dc_lag cfg = lag -> fit np cfg S (Arr2 (Mat U)) None = Ok f ->
  kept np (col_mx (past lag S) U) (dc_rank_omega cfg) -> kept np (future lag S) (dc_rank cfg) -> eig_ok np (do_Atilde (ft_op f)) ->
  let o := ft_op f in let Q := do_basis o in
  [/\ ft_lag f = lag, (0 < lag)%N, ft_S f = S & ft_I f = Mat U] /\
  exists r P (s : 'rV_r) V, let F := future lag S *m V *m diag_mx (recip s) *m adj P in
  [/\ exact_svd (col_mx (past lag S) U) P s V /\ existT (fun q => 'M[C]_(n, q)) (ft_q f) (ft_B f) = existT _ q (Q *m (adj Q *m rsubmx F)),
      adj Q *m Q = 1%:M /\ Q *m adj Q *m future lag S = future lag S,
      do_Atilde o = adj Q *m lsubmx F *m Q, do_modes o = lsubmx F *m Q *m do_vecs o &
      do_Atilde o *m do_vecs o = do_vecs o *m diag_mx (do_eigs o)].
Proof.
move=> Hlag Hf Hp Hy HE; have EP := kept_exact Hp; have EY := kept_exact Hy.
have [e [v [Hev [Hl [b Ef]]]]] := fit_unknown Hlag Hf.
have adj_u a1 a2 k (M : 'M[C]_(a1 + a2, k)) : adj M = row_mx (adj (usubmx M)) (adj (dsubmx M)).
  apply/matrixP=> i j; rewrite adjE mxE; case: splitP=> l E; rewrite adjE mxE; congr ((M _ _)^*); exact/val_inj.
move: HE; rewrite Ef /= => HE; split=> //.
set p := compute_svd np (col_mx (past lag S) U) (dc_rank_omega cfg) in EP Hev HE *.
exists (sv_r p), (sv_U p), (sv_s p), (sv_V p); rewrite adj_u mul_mx_row row_mxKl row_mxKr; split=> //.
- by have [_ QQ _ _] := EY; split=> //; rewrite -mulmxA; exact: (XU EY).
- exact: (eig_plain Hev).
Qed.

Lemma known_core np n N q lag cfg A0 B0 (S : 'M[C]_(n, N)) (U : 'M[C]_(q, N - lag)) f :
  known_fit np cfg A0 B0 S U f ->
  let o := ft_op f in let Q := do_basis o in
  [/\ [/\ ft_lag f = lag, (0 < lag)%N, ft_S f = S, ft_I f = Mat U &
      existT (fun q => 'M[C]_(n, q)) (ft_q f) (ft_B f) = existT _ q B0],
   adj Q *m Q = 1%:M /\ Q *m adj Q *m past lag S = past lag S, do_Atilde o *m do_vecs o = do_vecs o *m diag_mx (do_eigs o),
   A0 *m Q = Q *m do_Atilde o & do_modes o = A0 *m Q *m do_vecs o].
Proof.
case=> H Ht Hk [c Hc]; have [Hf Hlag HN HD [HE _ _ _ _]] := H.
have [P [s [V [ES EA EM EW]]]] := known_parts Hlag Hf Ht Hk HE.
have EF : (future lag S - B0 *m U) *m V *m diag_mx (recip s) = A0 *m do_basis (ft_op f).
  by rewrite (driven_mx HN HD) addrK -!mulmxA; congr (_ *m _); rewrite mulmxA (span_U ES).
rewrite EF in EA EM; split=> //.
- by have [_ UU _ _] := ES; split=> //; rewrite -mulmxA (XU ES).
- have E1 : A0 *m do_basis (ft_op f) = past lag S *m (c *m V *m diag_mx (recip s)).
    by rewrite -{1}(span_U ES) !mulmxA Hc.
  by rewrite EA E1 !mulmxA -(mulmxA (do_basis (ft_op f))) (XU ES).
Qed.

Lemma unknown_core np n N q lag cfg A0 B0 (S : 'M[C]_(n, N)) (U : 'M[C]_(q, N - lag)) f :
  unknown_fit np cfg A0 B0 S U f ->
  let o := ft_op f in let Q := do_basis o in
  [/\ [/\ ft_lag f = lag, (0 < lag)%N, ft_S f = S, ft_I f = Mat U &
      existT (fun q => 'M[C]_(n, q)) (ft_q f) (ft_B f) = existT _ q B0],
   adj Q *m Q = 1%:M /\ Q *m adj Q *m future lag S = future lag S, do_Atilde o *m do_vecs o = do_vecs o *m diag_mx (do_eigs o),
   A0 *m Q = Q *m do_Atilde o & do_modes o = A0 *m Q *m do_vecs o].
Proof.
case=> H Hfree Hp Hy; have [Hf Hlag HN HD [HE _ _ _ _]] := H.
have [[L1 L2 L3 L4] [r [P [s [V [[EP EB] [QQ QY] EA EM EW]]]]]] := unknown_parts Hlag Hf Hp Hy HE.
have EO : future lag S = row_mx A0 B0 *m col_mx (past lag S) U by rewrite mul_row_col (driven_mx HN HD).
have PP : P *m adj P = 1%:M by apply: (row_free_inj Hfree); rewrite mul1mx -mulmxA; exact: (XU EP).
have EF : future lag S *m V *m diag_mx (recip s) *m adj P = row_mx A0 B0.
  by rewrite EO -[_ *m V]mulmxA -[_ *m diag_mx _]mulmxA (span_U EP) -mulmxA PP mulmx1.
rewrite EF row_mxKl row_mxKr in EA EM EB.
have Full : do_basis (ft_op f) *m adj (do_basis (ft_op f)) *m row_mx A0 B0 = row_mx A0 B0.
  by apply: (row_free_inj Hfree); rewrite -[LHS]mulmxA -EO.
move: Full; rewrite mul_mx_row => /eq_row_mx [F1 F2].
split=> //.
- by split=> //; rewrite EB mulmxA F2.
- by rewrite EA !mulmxA F1.
Qed.

(** ** Least squares, without any assumption on the data *)
Lemma normal_eq_rect n k m r (O : 'M[C]_(k, m)) (Y : 'M[C]_(n, m)) (P : 'M[C]_(k, r)) s V (G : 'M[C]_(n, k)) : exact_svd O P s V ->
  frob2 (Y - (Y *m V *m diag_mx (recip s) *m adj P) *m O) <= frob2 (Y - G *m O).
Proof.
move=> HS; case: (HS)=> EX HU HV Hs; set A := Y *m V *m _ *m _.
have UX : diag_mx (recip s) *m adj P *m O = adj V.
  by rewrite {1}EX !mulmxA -(mulmxA _ (adj P)) HU mulmx1 recip_diag // mul1mx.
have XA : adj O = V *m adj (P *m diag_mx s) by rewrite EX !adjM adjK.
have NE : (Y - A *m O) *m adj O = 0.
  rewrite /A -(mulmxA (Y *m V)) -(mulmxA (Y *m V)) UX mulmxBl XA.
  by rewrite -(mulmxA (Y *m V)) (mulmxA (adj V)) HV mul1mx !mulmxA subrr.
have -> : Y - G *m O = (Y - A *m O) + (A - G) *m O by rewrite mulmxBl addrA subrK.
move: NE; set R := Y - A *m O => NE; rewrite frob2D_orth ?ler_addl ?frob2_ge0 //.
by rewrite adjM mulmxA NE mul0mx.
Qed.

Lemma full_proj n m r (Z : 'M[C]_(n, m)) (Q : 'M[C]_(n, r)) : row_free Z -> Q *m adj Q *m Z = Z -> Q *m adj Q = 1%:M.
Proof. by move=> F H; apply: (row_free_inj F); rewrite H mul1mx. Qed.
End Main.

Section Extra.
Variable C : numClosedFieldType.
Implicit Type np : numpy C.

Lemma fit_lag np n N cfg (S : 'M[C]_(n, N)) I B f : fit np cfg S I B = Ok f -> (0 < ft_lag f)%N /\ ft_S f = S.
Proof.
rewrite /fit; case: (dc_lag cfg)=> [[|l]|l] //; case: B=> [[q B]|].
- case: (known_operator _ _ _ _ _ _)=> [o|x] //=; by case: (dc_amplitudes _ _ _ _)=> [b|x] //= [<-].
- case: (unknown_operator _ _ _ _ _)=> [o|x] //=; by case: (dc_amplitudes _ _ _ _)=> [b|x] //= [<-].
Qed.
Lemma fit_input np n N cfg (S : 'M[C]_(n, N)) I B f : fit np cfg S I B = Ok f -> ft_I f = atleast_2d I.
Proof.
rewrite /fit; case: (dc_lag cfg)=> [[|l]|l] //; case: B=> [[q B]|].
- case: (known_operator _ _ _ _ _ _)=> [o|x] //=; by case: (dc_amplitudes _ _ _ _)=> [b|x] //= [<-].
- case: (unknown_operator _ _ _ _ _)=> [o|x] //=; by case: (dc_amplitudes _ _ _ _)=> [b|x] //= [<-].
Qed.

Lemma floorq_uniq (q : rat) (k : int) : k%:~R <= q < k%:~R + 1 -> floorq q = k.
Proof.
case/andP=> H1 H2; rewrite /floorq.
have Hd : (0 < denq q)%R by exact: denq_gt0.
have E : q = (numq q)%:~R / (denq q)%:~R by rewrite divq_num_den.
have Hd' : (0 : rat) < (denq q)%:~R by rewrite ltr0z.
move: H1 H2; rewrite {1 2}E ler_pdivl_mulr // ltr_pdivr_mulr // -(intrD _ k 1) -!intrM ler_int ltr_int => H1 H2.
apply/eqP; rewrite eq_le; apply/andP; split.
  by rewrite -ltz_addr1 -(ltr_pmul2r Hd); apply: le_lt_trans H2; apply: lez_floor; rewrite gt_eqF.
by rewrite lez_divRL.
Qed.
Lemma ceilq_uniq (q : rat) (k : int) : k%:~R - 1 < q <= k%:~R -> ceilq q = k.
Proof.
case/andP=> H1 H2; rewrite /ceilq (@floorq_uniq _ (- k)) ?opprK // rmorphN; apply/andP; split.
  by rewrite ler_opp2.
by rewrite -ltr_opp2 opprK opprD opprK.
Qed.

Lemma n_steps_count (t : times) (T : nat) : 0 < tm_dt t ->
  (T%:R - 2%:R) * tm_dt t < tm_tend t - tm_t0 t <= (T%:R - 1) * tm_dt t -> n_steps t = T.
Proof.
move=> Hd /andP[H1 H2]; rewrite /n_steps /arange_len (@ceilq_uniq _ (Posz T)) //.
have -> : tm_tend t + tm_dt t - tm_t0 t = (tm_tend t - tm_t0 t) + tm_dt t by rewrite addrAC.
rewrite ltr_pdivl_mulr // ler_pdivr_mulr // -ltr_subl_addr -ler_subr_addr.
have E (a : rat) : a * tm_dt t - tm_dt t = (a - 1) * tm_dt t by rewrite mulrBl mul1r.
by rewrite !E -addrA -opprD H1 H2.
Qed.

Lemma step_power np t n r (Phi : 'M[C]_(n, r)) (L : 'rV[C]_r) (k : int) : power_ok np ->
  k%:~R <= tm_dt t / tm_dt0 t < k%:~R + 1 -> (0 <= k \/ forall j, L 0 j != 0) ->
  step_matrix np t Phi L = Phi *m diag_mx (\row_j L 0 j ^ k) *m np_pinv np Phi.
Proof.
move=> HP Hk HL; rewrite /step_matrix (floorq_uniq Hk); congr (_ *m diag_mx _ *m _).
by apply/rowP=> j; rewrite !mxE HP //; case: HL=> [H|H]; [right | left].
Qed.

Lemma mat_eq n q q' (B : 'M[C]_(n, q)) (B' : 'M[C]_(n, q')) :
  existT (fun q => 'M[C]_(n, q)) q B = existT _ q' B' -> Mat B = Mat B'.
Proof.
move=> E; have Eq := congr1 (@projT1 _ _) E; rewrite /= in Eq; subst q'.
by rewrite (Eqdep_dec.inj_pair2_eq_dec _ PeanoNat.Nat.eq_dec _ _ _ _ E).
Qed.
Lemma mat_eqV n q q' (B : 'M[C]_(n, q)) (B' : 'M[C]_(n, q')) : Mat B = Mat B' ->
  existT (fun q => 'M[C]_(n, q)) q B = existT _ q' B'.
Proof.
move=> E; have Eq := congr1 (@mcols C) E; rewrite /= in Eq; subst q'.
congr existT; have := congr1 (fun M : mat C => (conform_mx 0 (mdata M) : 'M[C]_(n, q))) E.
by rewrite /= !conform_mx_id.
Qed.

Lemma colE_mul n m p (M : 'M[C]_(n, m)) (X : 'M[C]_(m, p)) j : col j (M *m X) = M *m col j X.
Proof. by apply/colP=> i; rewrite !mxE; apply: eq_bigr=> k _; rewrite !mxE. Qed.

Lemma recon_spec_eq np n N (f : dc_fit C n N) r (Phi : 'M[C]_(n, r)) L t q (B0 : 'M[C]_(n, q)) p (V : 'M[C]_(q, p)) :
  (0 < ft_lag f)%N /\ (ft_lag f <= N)%N -> n_steps t = (ft_lag f + p)%N ->
  existT (fun q => 'M[C]_(n, q)) (ft_q f) (ft_B f) = existT _ q B0 ->
  exists d, reconstructed_data np f Phi L t (Some (Arr2 (Mat V))) = Ok d /\
  [/\ size d = (ft_lag f + p)%N, forall j, (j < ft_lag f)%N -> nth 0 d j = nth 0 (columns (ft_S f)) j &
      driven (step_matrix np t Phi L) B0 (ft_lag f) (columns V) d].
Proof.
case: f=> l S I q' B' o b /= [Hl HN] Ht E; have Eq := congr1 (@projT1 _ _) E; rewrite /= in Eq; subst q'.
have {}E := Eqdep_dec.inj_pair2_eq_dec _ PeanoNat.Nat.eq_dec _ _ _ _ E; subst B'.
by apply: (@recon_spec C np n N (DcFit l S I B0 b)); rewrite /= ?Hl.
Qed.
(** amplitudes *)
Lemma col_index_spec N z (j : 'I_N) : col_index N z = Some j -> j = (if 0 <= z then z else N%:Z + z) :> int.
Proof.
case: z => a /=; first by case: insubP => //= u _ Hu [<-]; rewrite Hu.
case: leqP => // H; case: insubP => //= u _ Hu [<-]; rewrite Hu.
by rewrite NegzE -subzn.
Qed.
Lemma dc_amplitudes_spec np cfg n N (S : 'M[C]_(n, N)) (o : dc_op C n) b z :
  dc_amplitudes np cfg S o = Ok b -> dc_opt cfg = OptInt z \/ (dc_opt cfg = OptBool false /\ z = 0) ->
  exists j, col_index N z = Some j /\ b = np_lstsq np (do_modes o) (col j S).
Proof.
rewrite /dc_amplitudes /amplitudes => H [E|[E ->]]; move: H; rewrite E.
- by case: (col_index _ z) => // j [<-]; exists j.
- by case: (col_index N 0) => // j [<-]; exists j.
Qed.
Lemma fit_amplitudes np n N cfg (S : 'M[C]_(n, N)) I B f (z : int) :
  fit np cfg S I B = Ok f -> dc_opt cfg = OptInt z \/ (dc_opt cfg = OptBool false /\ z = 0) ->
  exists j : 'I_N, (j = (if 0 <= z then z else N%:Z + z) :> int) /\
    (lstsq_ok np (do_modes (ft_op f)) (col j S) -> is_lstsq (do_modes (ft_op f)) (col j S) (ft_b f)).
Proof.
rewrite /fit; case: (dc_lag cfg) => // -[|l] //; case: B => [[q B]|].
- case: (known_operator _ _ _ _ _ _)=> [o|x] //=; case Ea: (dc_amplitudes _ _ _ _)=> [b|x] //= -[<-] Ho.
  have [j [Hj Eb]] := dc_amplitudes_spec Ea Ho; exists j; split; first exact: col_index_spec.
  by rewrite Eb.
- case: (unknown_operator _ _ _ _ _)=> [[o B]|x] //=; case Ea: (dc_amplitudes _ _ _ _)=> [b|x] //= -[<-] Ho.
  have [j [Hj Eb]] := dc_amplitudes_spec Ea Ho; exists j; split; first exact: col_index_spec.
  by rewrite Eb.
Qed.
End Extra.
