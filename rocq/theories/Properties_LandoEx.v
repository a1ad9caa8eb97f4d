(** * LANDO: kernels, the linear kernel, predictions; a concrete case (C48) *)
From mathcomp Require Import all_ssreflect all_algebra all_field.
From Verif Require Import Py LinAlg Model_Operator Spec_Operator Model_Lando Spec_Lando Proofs_Lando Proofs_LandoDict Proofs_LandoOnline
  Proofs_LandoFit Proofs_LandoKernel Properties_Lando Ideal.
From Verif Require Model_Utils.
Set Implicit Arguments. Unset Strict Implicit. Unset Printing Implicit Defensive.
Import Order.TTheory GRing.Theory Num.Theory.
Local Open Scope ring_scope.

Section Kernels.
Variables (C : numClosedFieldType) (np : numpy C) (n : nat) (ex : C -> C) (cplx : bool).

(** the kernels of C48: those with finitely many real features, among them the linear and the polynomial ones *)
Theorem C48_kernels :
  (forall (k : 'cV[C]_n -> 'cV[C]_n -> C) p (phi : 'cV[C]_n -> 'cV[C]_p), feature_kernel k phi -> pos_kernel k) /\
  pos_kernel (kernel ex (@KLinear C n)) /\
  forall g c e, 0 <= gamma_of n g -> 0 <= coef_of c -> pos_kernel (kernel ex (@KPoly C n g c e)).
Proof.
split; first by move=> k p phi F; apply: featured_pos; exists p, phi.
split; first exact: featured_pos (linear_featured n ex).
by move=> g c e g0 c0; apply: featured_pos; apply: poly_featured.
Qed.
(** with the default parameters *)
Theorem C48_default_poly e : pos_kernel (kernel ex (@KPoly C n None None e)).
Proof. by apply: (proj2 (proj2 C48_kernels)); rewrite /= ?invr_ge0 ?ler0n ?ler01. Qed.

(** the kernels without parameters: (x.y / n + 1)^3 and exp(-|x-y|^2 / n); and what the parameters do *)
Theorem C48_kernel_values (a b : 'cV[C]_n) g c e :
  [/\ kernel ex (@KLinear C n) a b = \sum_i a i 0 * b i 0,
      kernel ex (@KPoly C n None None None) a b = ((\sum_i a i 0 * b i 0) / n%:R + 1) ^+ 3,
      kernel ex (@KRbf C n None) a b = ex (- (\sum_i `|a i 0 - b i 0| ^+ 2) / n%:R),
      kernel ex (@KPoly C n (Some g) (Some c) (Some e)) a b = (g * (\sum_i a i 0 * b i 0) + c) ^+ e
    & kernel ex (@KRbf C n (Some g)) a b = ex (- (g * \sum_i `|a i 0 - b i 0| ^+ 2))].
Proof.
have D : dot a b = \sum_i a i 0 * b i 0 by rewrite /dot mxE; apply: eq_bigr => i _; rewrite mxE.
have N2 : norm2 (a - b) = \sum_i `|a i 0 - b i 0| ^+ 2 by rewrite /norm2; apply: eq_bigr => i _; rewrite !mxE.
split; rewrite /= ?D ?N2 //.
- by rewrite mulrC.
- by congr ex; rewrite !mulNr mulrC.
- by rewrite mulNr.
Qed.

(** ** The linear kernel *)
Section Linear.
Hypothesis LS : forall a b (M : 'M[C]_(a, b)) y, lstsq_ok np M y.
Hypothesis PI : forall a b (M : 'M[C]_(a, b)), pinv_ok np M.
Local Notation lin_kernel := (@KLinear C n).

Lemma kernels_linear a b (A : 'M[C]_(n, a)) (B : 'M[C]_(n, b)) : kernels (kernel ex lin_kernel) A B = A^T *m B.
Proof. by apply/matrixP => i j; rewrite [LHS]mxE /= /dot !mxE; apply: eq_bigr => l _; rewrite !mxE. Qed.
Lemma span_weights (A : 'M[C]_n) (Ts : seq 'cV[C]_n) (R : 'M[C]_(size Ts, n)) a (Z : 'M[C]_(n, a)) : cols Ts *m R = 1%:M ->
  A *m R^T *m kernels (kernel ex lin_kernel) (cols Ts) Z = A *m Z.
Proof. by move=> H; rewrite kernels_linear -mulmxA [R^T *m _]mulmxA -trmx_mul H trmx1 mul1mx. Qed.

(** A linear map is learnt exactly, from inputs that span the space. *)
Theorem C48_linear_offline d0 sh shape c d (A : 'M[C]_n) (R : 'M[C]_(size (xs_of np sh d0 c), n)) : shuffles sh ->
  call_fit np ex lin_kernel cplx sh d0 shape c = (d, Ok tt) -> lc_online (la_cfg d0) = false -> lc_tol (la_cfg d0) = 0 ->
  (forall x, x \in xs_of np sh d0 c -> realm x) -> (forall x, ohead (xs_of np sh d0 c) = Some x -> x != 0) ->
  cols (xs_of np sh d0 c) *m R = 1%:M ->
  (forall p, p \in zip (xs_of np sh d0 c) (ys_of np sh d0 c) -> p.2 = A *m p.1) ->
  forall a (X : 'M[C]_(n, a)), realm (rescaled (la_scale d0) X) ->
    f ex lin_kernel d shape X = Ok (A *m rescaled (la_scale d0) X).
Proof.
move=> SH E Off t0 Rx N0 HR HA a X RX.
have PK := featured_pos (linear_featured n ex).
rewrite (C48_recovery_offline PK LS PI (B := A *m R^T) SH E Off t0 Rx _ _ _ RX) //.
- by rewrite span_weights.
- move=> x Hx; have := N0 x Hx; apply: contra => /eqP K0.
  have Rr : realm x by apply: Rx; case: (xs_of np sh d0 c) Hx => //= y l [->]; rewrite mem_head.
  rewrite /= /dot in K0; rewrite -frob2_eq0 frob2_tr' realm_adj //; apply/eqP; by rewrite [_ *m x]mx11_scalar K0 mxtrace_scalar mulr1n.
- by move=> p I; rewrite span_weights //; exact: HA.
Qed.
Theorem C48_linear_online d0 xs ys d (A : 'M[C]_n) (R : 'M[C]_(size xs, n)) : fed np ex lin_kernel cplx d0 xs ys d ->
  lc_online (la_cfg d0) -> lc_tol (la_cfg d0) = 0 ->
  (forall x, x \in xs -> realm x) -> (forall x, ohead xs = Some x -> x != 0) ->
  cols xs *m R = 1%:M -> (forall p, p \in zip xs ys -> p.2 = A *m p.1) ->
  forall a (X : 'M[C]_(n, a)), realm (rescaled (la_scale d0) X) ->
    f ex lin_kernel d (la_shape d) X = Ok (A *m rescaled (la_scale d0) X).
Proof.
move=> F On t0 Rx N0 HR HA a X RX.
have PK := featured_pos (linear_featured n ex).
rewrite (C48_recovery_online PK LS (B := A *m R^T) F On t0 Rx _ _ _ RX) //.
- by rewrite span_weights.
- move=> x Hx; have := N0 x Hx; apply: contra => /eqP K0.
  have Rr : realm x by apply: Rx; case: (xs) Hx => //= y l [->]; rewrite mem_head.
  rewrite /= /dot in K0; rewrite -frob2_eq0 frob2_tr' realm_adj //; apply/eqP; by rewrite [_ *m x]mx11_scalar K0 mxtrace_scalar mulr1n.
- by move=> p I; rewrite span_weights //; exact: HA.
Qed.
End Linear.

(** ** predict(continuous=False) *)
Variable ks : kspec C n.
Definition re_part (v : 'cV[C]_n) : 'cV[C]_n := map_mx (fun z => 'Re z) v.
Lemma stepsP (d : lando C n) o k z : la_op d = Some o -> la_shape d = [:: n] -> exists l,
  [/\ predict_steps ex ks d z k = Ok l, size l = k.+1, nth 0 l 0 = z &
    forall i, (i < k)%N -> exists y, f ex ks d [:: n] (nth 0 l i) = Ok y /\ nth 0 l i.+1 = re_part y].
Proof.
move=> Eo Sh; elim: k z => [|k IH] z /=; first by exists [:: z].
have Ef v : f ex ks d [:: n] v = Ok (model_of ex ks o (la_scale d) v) :> result 'cV_n by rewrite /f Eo Sh eqxx.
rewrite Ef /=; have [l [-> Sl N0 H]] := IH (re_part (model_of ex ks o (la_scale d) z)).
exists (z :: l); split=> //=; first by rewrite Sl.
case=> [|i] Li /=; last exact: H.
by exists (model_of ex ks o (la_scale d) z); rewrite Ef.
Qed.
(** the model is applied again and again, and every state is stored as real numbers *)
Theorem C48_predict (d : lando C n) x0 k : la_op d <> None -> la_shape d = [:: n] -> exists l,
  [/\ predict_discrete ex ks d [:: n] x0 (Posz k.+1) = Ok l, size l = k.+1, nth 0 l 0 = re_part x0 &
    forall i, (i < k)%N -> exists y, f ex ks d [:: n] (nth 0 l i) = Ok y /\ nth 0 l i.+1 = re_part y].
Proof.
move=> No Sh; case Eo: (la_op d) No => [o|] // _; rewrite /predict_discrete Eo Sh eqxx; exact: stepsP Eo Sh.
Qed.
(** of a model of real numbers it is the orbit of the model *)
Theorem C48_predict_orbit (d : lando C n) x0 k : la_op d <> None -> la_shape d = [:: n] -> realm x0 ->
  (forall (x y : 'cV[C]_n), realm x -> f ex ks d [:: n] x = Ok y -> realm y) -> exists l,
  [/\ predict_discrete ex ks d [:: n] x0 (Posz k.+1) = Ok l, size l = k.+1, nth 0 l 0 = x0 &
    forall i, (i < k)%N -> f ex ks d [:: n] (nth 0 l i) = Ok (nth 0 l i.+1)].
Proof.
move=> No Sh Rx Rf; have [l [E Sl E0 H]] := C48_predict x0 k No Sh; exists l.
have Re v : realm v -> re_part v = v by move=> Rv; apply/matrixP => i j; rewrite mxE; apply/Creal_ReP; apply: Rv.
have R i : (i <= k)%N -> realm (nth 0 l i).
  elim: i => [|i IH] Li; first by rewrite E0 Re.
  have [y [Ef ->]] := H i Li; have Ry := Rf _ _ (IH (ltnW Li)) Ef; by rewrite Re.
split=> //; first by rewrite E0 Re.
by move=> i Li; have [y [Ef ->]] := H i Li; rewrite Re //; apply: Rf Ef; apply: R; apply: ltnW.
Qed.
(** A model fitted on snapshots with more than one axis cannot predict: a second state raises ValueError. *)
Theorem C48_predict_refuted (d : lando C n) x0 k : la_op d <> None -> la_shape d <> [:: n] ->
  predict_discrete ex ks d (la_shape d) x0 (Posz k.+2) = Err ValueError.
Proof.
move=> No Sh; case Eo: (la_op d) No => [o|] // _; rewrite /predict_discrete Eo eqxx /= /f Eo.
by case: eqP => // E; case: Sh; rewrite E.
Qed.
(** and a complex initial state loses its imaginary part *)
Theorem C48_predict_complex_refuted (d : lando C n) x0 : la_op d <> None -> la_shape d = [:: n] ->
  predict_discrete ex ks d [:: n] x0 1 = Ok [:: re_part x0].
Proof. by move=> No Sh; case Eo: (la_op d) No => [o|] // _; rewrite /predict_discrete Eo Sh eqxx. Qed.
End Kernels.

(** ** A concrete case: a linear map of the plane, learnt from the two unit vectors *)
Section Case.
Variable C : numClosedFieldType.
Local Notation np := (ideal C).
Definition plane_cfg (online : bool) : lcfg C := LCfg (Model_Utils.RInt BinNums.Z0) 0 (OptBool false) 0 online false true.
Definition plane (online : bool) : lando C 2 := lando_init (plane_cfg online) (RsNum 2 1).
Definition same (N : nat) (l : seq 'I_N) := l.
Variable ex : C -> C.
Lemma rescaled1 a (X : 'M[C]_(2, a)) : rescaled (RsNum 2 1) X = X.
Proof. by apply/matrixP => i j; rewrite !mxE mulr1. Qed.
Lemma same_shuffles : shuffles same. Proof. by []. Qed.
Lemma one_pair (on : bool) (v w : 'cV[C]_2) : xs_of np same (plane on) (Pair v w) = [:: v] /\ ys_of np same (plane on) (Pair v w) = [:: w].
Proof.
rewrite /xs_of /ys_of /order /raw /compute_tlsq /= rescaled1 enum_ordS /=.
have -> : enum 'I_0 = [::] by apply/nilP; rewrite /nilp size_enum_ord.
by rewrite !col_id.
Qed.
Lemma unit_cols : cols [:: col 0 1%:M; col 1 1%:M] = 1%:M :> 'M[C]_2.
Proof.
apply/matrixP => i j; rewrite mxE; case: j => [[|[|j]] Hj] //=; rewrite mxE; congr (1%:M i _); exact: val_inj.
Qed.
Lemma unit_real (j : 'I_2) : realm (col j (1%:M : 'M[C]_2)).
Proof. by move=> a b; rewrite !mxE; case: (_ == _); rewrite ?real1 ?real0. Qed.
Lemma unit_neq0 : col 0 (1%:M : 'M[C]_2) != 0.
Proof. by apply/eqP => /matrixP /(_ 0 0); rewrite !mxE eqxx => /eqP; rewrite oner_eq0. Qed.
(** one fit on both *)
Example C48_plane_offline (A : 'M[C]_2) : exists d,
  call_fit np ex (@KLinear C 2) false same (plane false) [:: 2%N] (Pair 1%:M A) = (d, Ok tt) /\
  forall a (X : 'M[C]_(2, a)), realm X -> f ex (@KLinear C 2) d [:: 2%N] X = Ok (A *m X).
Proof.
have [_ [_ [Ls [Pi _]]]] := ideal_contracts C.
have [d E] := @C48_fit_succeeds C np 2 ex (@KLinear C 2) false (plane false) same [:: 2%N] (Pair 1%:M A) _ same_shuffles erefl erefl.
exists d; split=> // a X RX; rewrite -{2}[X]rescaled1.
have Ex : xs_of np same (plane false) (Pair 1%:M A) = [:: col 0 1%:M; col 1 1%:M].
  rewrite /xs_of /order /raw /compute_tlsq /= rescaled1 enum_ordS /=.
  rewrite enum_ordS /=; have -> : enum 'I_0 = [::] by apply/nilP; rewrite /nilp size_enum_ord.
  by congr [:: _; col _ _]; apply: val_inj.
have [R HR] : exists R, cols (xs_of np same (plane false) (Pair 1%:M A)) *m R = 1%:M.
  by rewrite Ex; exists 1%:M; rewrite unit_cols mulmx1.
apply: (C48_linear_offline Ls Pi same_shuffles E _ _ _ _ HR) => //.
- by move=> x; rewrite Ex !inE => /orP [] /eqP ->; apply: unit_real.
- by move=> x; rewrite Ex => -[<-]; exact: unit_neq0.
- move=> p; rewrite /xs_of /ys_of zip_map => /mapP [i _ ->] /=; rewrite /raw /compute_tlsq /= rescaled1.
  by rewrite [in RHS]colE mul1mx -colE.
- by rewrite rescaled1.
Qed.
(** a fit on the first, then an update with the second *)
Example C48_plane_online (A : 'M[C]_2) : exists d d',
  [/\ call_fit np ex (@KLinear C 2) false same (plane true) [:: 2%N] (Pair (col 0 1%:M) (col 0 A)) = (d, Ok tt),
      call_update np ex (@KLinear C 2) false same d (Pair (col 1 1%:M) (col 1 A)) = (d', Ok tt) &
      forall a (X : 'M[C]_(2, a)), realm X -> f ex (@KLinear C 2) d' [:: 2%N] X = Ok (A *m X)].
Proof.
have [_ [_ [Ls [Pi _]]]] := ideal_contracts C.
have [d E] := @C48_fit_succeeds C np 2 ex (@KLinear C 2) false (plane true) same [:: 2%N] (Pair (col 0 1%:M) (col 0 A)) _ same_shuffles erefl erefl.
have [o [Eo Ec _ Esh _]] := call_fitP E.
have [d' E'] : exists d', call_update np ex (@KLinear C 2) false same d (Pair (col 1 1%:M) (col 1 A)) = (d', Ok tt).
  have [El _ _ _ _] := call_fit_keeps E.
  by rewrite /= /update_xy /update_pair Eo Ec /= El; eexists.
exists d, d'; split=> // a X RX; rewrite -{2}[X]rescaled1.
have F := Fed_update (Fed_fit same_shuffles E) same_shuffles E'.
have Ep : la_scale d = RsNum 2 1.
  move: E; rewrite /= /fit_xy /fit_pair /=; case: (compute_operator _ _ _ _ _ _ _ _ _ _ _ _) => [o'|e] //.
  by case=> <-.
have On' : lc_online (la_cfg d) by rewrite Ec.
have [o' [_ _ _ Esh' _]] := call_updateP On' Eo E'; have {}Esh : la_shape d' = [:: 2%N] by rewrite Esh'.
move: F; have [-> ->] := one_pair true (col 0 1%:M) (col 0 A).
have -> : xs_of np same d (Pair (col 1 1%:M) (col 1 A)) = [:: col 1 1%:M].
  by rewrite -(proj1 (one_pair true (col 1 1%:M) (col 1 A))) /xs_of /raw /order Ec Ep.
have -> : ys_of np same d (Pair (col 1 1%:M) (col 1 A)) = [:: col 1 A].
  by rewrite -(proj2 (one_pair true (col 1 1%:M) (col 1 A))) /ys_of /order Ec.
rewrite /= => F; rewrite -Esh.
have H := @C48_linear_online C np 2 ex false Ls (plane true) [:: col 0 1%:M; col 1 1%:M] [:: col 0 A; col 1 A] d' A 1%:M F.
apply: H => //.
- by move=> x; rewrite !inE => /orP [] /eqP ->; apply: unit_real.
- by move=> x [<-]; exact: unit_neq0.
- by rewrite unit_cols mulmx1.
- by move=> p; rewrite !inE => /orP [] /eqP -> /=; rewrite [in RHS]colE mul1mx -colE.
by rewrite rescaled1.
Qed.
End Case.

(** ** Assumptions *)
Print Assumptions C48_kernels.
Print Assumptions C48_kernel_values.
Print Assumptions C48_default_poly.
Print Assumptions C48_linear_offline.
Print Assumptions C48_linear_online.
Print Assumptions C48_predict.
Print Assumptions C48_predict_orbit.
Print Assumptions C48_predict_refuted.
Print Assumptions C48_predict_complex_refuted.
Print Assumptions C48_plane_offline.
Print Assumptions C48_plane_online.
