(** * LANDO: a second analysis, a second fit, an update after an analysis (C57) *)
From mathcomp Require Import all_ssreflect all_algebra all_field.
From Verif Require Import Py LinAlg Model_Operator Spec_Operator Ideal Model_Lando Spec_Lando Proofs_Lando Properties_Lando Properties_LandoFix.
Set Implicit Arguments. Unset Strict Implicit. Unset Printing Implicit Defensive.
Import Order.TTheory GRing.Theory Num.Theory.
Local Open Scope ring_scope.

Section Again.
Variables (C : numClosedFieldType) (np : numpy C) (n : nat) (ex : C -> C) (ks : kspec C n) (cplx : bool).
Local Notation lando := (lando C n).
Local Notation analyze := (analyze_fixed_point np ex ks).

Lemma analyze_want d shape fp w d1 : analyze d shape fp w = (d1, Ok tt) -> la_wantA d1 = w.
Proof.
have Sk (d' : lando) : la_wantA (seen d').1 = la_wantA d'.
  rewrite /seen /shown; case: (la_lin d') => [l|] //=; case: (la_px d') => [p|] //=.
  by case: (la_b d') => [[j b]|] //=; case: eqP.
rewrite /analyze_fixed_point; case: (la_op d) => [o|] //; case: eqP => // _; rewrite /analyze_at.
case: (linear_operator _ _ _ _ _ _ _) => [[l A]|e] //.
set d2 := Lando _ _ _ _ _ _ _ _ _ _ _; have := Sk d2; case: (seen d2) => d3 [[[j [Phi e]]|]|e] /= H; case: (la_snap d) => [[N Sn]|] //.
by case: (Model_EDMD.edmd_amplitudes _ _ _ _ _) => [b|e'] //= [<-].
Qed.

(** ** An update repeats the analysis: the three parts are those of the new model *)
Theorem C57_update sh d1 c d2 shape fp w d0 : analyze d0 shape fp w = (d1, Ok tt) ->
  call_update np ex ks cplx sh d1 c = (d2, Ok tt) ->
  exists v (A : 'M[C]_n),
    [/\ bias d2 = Ok v, f ex ks d2 shape fp = Ok v, w -> linear d2 = Ok (Some A) &
        forall a (X : 'M[C]_(n, a)), exists N F, [/\ nonlinear ex ks d2 shape X = Ok N,
          f ex ks d2 shape (shifted fp X) = Ok F & F = shifted v (A *m X + N)]].
Proof.
move=> E1; have [o [l [G [Eo Es EG El [Eo' Esc Esh [Ell EA Ef]]]]]] := analyzeP E1.
have -> : call_update np ex ks cplx sh d1 c = update_pair np ex ks cplx sh d1 (inputs c) (outputs c).
  case: c => [N M | N X Y]; last exact: erefl.
  rewrite /call_update /update inputsE outputsE; exact: erefl.
rewrite /update_pair Eo' Ell Ef; case: (compute_operator _ _ _ _ _ _ _ _ _ _ _ _) => [o'|e] //.
set d' := Lando _ _ _ _ _ _ _ _ _ _ _ => E.
have E' : analyze d' shape fp (la_wantA d1) = (d2, Ok tt).
  rewrite /analyze_fixed_point; have -> : la_op d' = Some o' by [].
  have -> : la_shape d' = shape by rewrite /= Esh.
  by rewrite eqxx.
by rewrite (analyze_want E1) in E'; have [v [A [H1 H2 H3 _ H4]]] := C47_parts E'; exists v, A.
Qed.

(** ** Refuted: what was read before a second analysis is shown for ever, beside the bias of the second *)
Lemma analyze_at_px d o fp w p d' r : la_px d = Some p -> analyze_at np ex ks d o fp w = (d', r) -> la_px d' = Some p.
Proof.
move=> Ep; rewrite /analyze_at; case: (linear_operator _ _ _ _ _ _ _) => [[l A]|e]; last by case=> <- _.
rewrite /seen /shown /= Ep; case: (la_snap d) => [[N Sn]|]; last by case=> <- _.
by case: (Model_EDMD.edmd_amplitudes _ _ _ _ _) => [b|e'] // [<- _].
Qed.
Lemma shown_px (d d1 : lando) p : shown d = (d1, Ok (Some p)) -> la_px d1 = Some p /\ la_lin d1 = la_lin d.
Proof.
rewrite /shown; case El: (la_lin d) => [l|] //; case Ep: (la_px d) => [q|]; first by case=> <- <-.
by case: (la_b d) => [[j b]|] //; case: eqP => // e [<- <-].
Qed.
Theorem C57_read_refuted (d d1 : lando) p shape fp w d2 : shown d = (d1, Ok (Some p)) -> analyze d1 shape fp w = (d2, Ok tt) ->
  exists v, [/\ bias d2 = Ok v, f ex ks d2 shape fp = Ok v & (shown d2).2 = Ok (Some p)].
Proof.
move=> Sh Ea; have [Ep _] := shown_px Sh; have [v [A [H1 H2 _ _ _]]] := C47_parts Ea; exists v; split=> //.
have [o [l [G [Eo Es _ _ [_ _ _ [Ell _ _]]]]]] := analyzeP Ea.
move: Ea; rewrite /analyze_fixed_point Eo Es eqxx => /(analyze_at_px Ep) Ep2.
by rewrite /shown Ell Ep2.
Qed.

(** ** Refuted: without a reading in between, the modes and eigenvalues are the new ones, and the amplitudes are those of
    the first analysis *)
Definition amps_of (p : px C n) : {k & 'cV[C]_k} := existT _ (px_k p) (px_amps p).
Lemma first_shown sh d0 shape c d fp w d1 : call_fit np ex ks cplx sh d0 shape c = (d, Ok tt) -> analyze d shape fp w = (d1, Ok tt) ->
  exists o l A b, [/\ la_op d = Some o, shape = la_shape d, linear_operator np ex ks (lc_rank (la_cfg d)) o (rescaled (la_scale d) fp) (factors (la_scale d)) = Ok (l, A) &
    [/\ (shown d1).2 = Ok (Some (Px (li_modes l) (li_eigs l) b)), la_b d1 = Some (existT _ (li_k l) b), la_px d1 = None & la_lin d1 = Some l]].
Proof.
move=> Ef Ea; have [_ _ _ Eb Ep] := call_fit_keeps Ef.
have [o [l [G [Eo Es EGr El [Eo' Esc Esh [Ell EA Efx]]]]]] := analyzeP Ea.
have [l' [b [El' Eb' Ep']]] : exists l b, [/\ la_lin d1 = Some l, la_b d1 = Some (existT _ (li_k l) b) & la_px d1 = None].
  by move: Ea; rewrite /analyze_fixed_point Eo Es eqxx; exact: first_px.
move: El'; rewrite Ell => -[E]; rewrite -{}E in b Eb'.
exists o, l, (lo_W o *m G), b; split=> //; split=> //.
by rewrite /shown Ell Ep' Eb'; case: eqP => // e; rewrite /= castmx_id.
Qed.
Lemma second_shown d o fp w d2 r k b l A : la_b d = Some (existT _ k b) -> la_px d = None ->
  linear_operator np ex ks (lc_rank (la_cfg d)) o (rescaled (la_scale d) fp) (factors (la_scale d)) = Ok (l, A) ->
  analyze_at np ex ks d o fp w = (d2, r) ->
  if k == li_k l then r = Ok tt -> exists p, [/\ (shown d2).2 = Ok (Some p), amps_of p = existT _ k b &
    existT (fun k => ('M[C]_(n, k) * 'rV[C]_k)%type) (px_k p) (px_modes p, px_eigs p) = existT _ (li_k l) (li_modes l, li_eigs l)]
  else r = Err IndexError.
Proof.
move=> Eb Ep El; case: (k =P li_k l) => [e|Ne].
  subst k; rewrite /analyze_at El /seen /shown /= Ep Eb; case: eqP => // e; rewrite castmx_id.
  case: (la_snap d) => [[N Sn]|] Eq Er; subst r; move: Eq => //.
  by case: (Model_EDMD.edmd_amplitudes _ _ _ _ _) => [b'|x] // [<-]; eexists; split; [exact: erefl| exact: erefl |exact: erefl].
rewrite /analyze_at El /seen /shown /= Ep Eb; case: eqP => //= _.
by case: (la_snap d) => [[N Sn]|] [_ <-].
Qed.
Theorem C57_amplitudes_refuted sh d0 shape c d fp1 w1 d1 fp2 w2 d2 :
  call_fit np ex ks cplx sh d0 shape c = (d, Ok tt) -> analyze d shape fp1 w1 = (d1, Ok tt) -> analyze d1 shape fp2 w2 = (d2, Ok tt) ->
  exists p1 p2, [/\ (shown d1).2 = Ok (Some p1), (shown d2).2 = Ok (Some p2), amps_of p2 = amps_of p1 &
    forall d2' p, analyze d shape fp2 w2 = (d2', Ok tt) -> (shown d2').2 = Ok (Some p) ->
      existT (fun k => ('M[C]_(n, k) * 'rV[C]_k)%type) (px_k p2) (px_modes p2, px_eigs p2) = existT _ (px_k p) (px_modes p, px_eigs p)].
Proof.
move=> Ef E1 E2; have [o [l [A [b [Eo Es El [Sh Eb Ep Ell]]]]]] := first_shown Ef E1.
have [oo [ll [GG [_ _ _ _ [Eo1 Esc1 Esh1 _]]]]] := analyzeP E1.
have Ec1 : la_cfg d1 = la_cfg d by move: E1; rewrite /analyze_fixed_point Eo Es eqxx => /analyze_at_keeps [].
have [o2 [l2 [G2 [Eo2 Es2 _ El2 _]]]] := analyzeP E2.
have E12 : o2 = o.
  by move: E1; rewrite /analyze_fixed_point Eo Es eqxx => /analyze_at_keeps [Ek _ _ _]; move: Eo2; rewrite Ek Eo => -[].
move: E2; rewrite /analyze_fixed_point Eo2 -Es2 eqxx => /(second_shown Eb Ep El2); case: eqP => // _ /(_ erefl) [p2 [S2 A2 M2]].
exists (Px (li_modes l) (li_eigs l) b), p2; split=> // d2' p E2' Sp.
have [o3 [l3 [A3 [b3 [Eo3 _ El3 [S3 _ _ _]]]]]] := first_shown Ef E2'.
move: Sp; rewrite S3 => -[<-] /=; rewrite M2; have -> : l2 = l3; last by [].
have Eo32 : o3 = o2 by rewrite E12; move: Eo3; rewrite Eo => -[].
by rewrite Eo32 in El3; move: El2; rewrite Ec1 Esc1 El3 => -[->].
Qed.

Lemma fit_snap sh d0 shape c d : call_fit np ex ks cplx sh d0 shape c = (d, Ok tt) -> (0 < count c)%N ->
  exists N S, la_snap d = Some (existT _ N S) /\ (0 < N)%N.
Proof.
rewrite /call_fit; case: c => [N M|N X Y] E /= N0; move: E; rewrite /fit /fit_xy /fit_pair; case: (check_rescale _ _) => [sc|] //;
  by case: (compute_operator _ _ _ _ _ _ _ _ _ _ _ _) => [o'|] // [<-]; eexists; eexists; split; [exact: erefl|].
Qed.
Lemma analyze_snap d shape fp w d1 : analyze d shape fp w = (d1, Ok tt) -> la_snap d1 = la_snap d.
Proof.
have Sk (d' : lando) : la_snap (seen d').1 = la_snap d'.
  rewrite /seen /shown; case: (la_lin d') => [l|] //=; case: (la_px d') => [p|] //=.
  by case: (la_b d') => [[j b]|] //=; case: eqP.
rewrite /analyze_fixed_point; case: (la_op d) => [o|] //; case: eqP => // _; rewrite /analyze_at.
case: (linear_operator _ _ _ _ _ _ _) => [[l A]|e] //.
set d2 := Lando _ _ _ _ _ _ _ _ _ _ _; have := Sk d2; case: (seen d2) => d3 [[[j [Phi e]]|]|e] /= H; case: (la_snap d) H => [[N Sn]|] // H.
by case: (Model_EDMD.edmd_amplitudes _ _ _ _ _) => [b|e'] //= [<-].
Qed.
(** Refuted: a second analysis replaces the first.  It raises IndexError when it finds another number of non-zero
    eigenvalues. *)
Theorem C57_count_refuted sh d0 shape c d fp1 w1 d1 p1 fp2 w2 d2 p2 : call_fit np ex ks cplx sh d0 shape c = (d, Ok tt) ->
  analyze d shape fp1 w1 = (d1, Ok tt) -> (shown d1).2 = Ok (Some p1) ->
  analyze d shape fp2 w2 = (d2, Ok tt) -> (shown d2).2 = Ok (Some p2) -> px_k p1 <> px_k p2 ->
  exists d2', analyze d1 shape fp2 w2 = (d2', Err IndexError).
Proof.
move=> Ef E1 S1 E2 S2 Ne; have [o [l [A [b [Eo Es El [Sh Eb Ep Ell]]]]]] := first_shown Ef E1.
have [o2 [l2 [A2 [b2 [Eo2 _ El2 [Sh2 _ _ _]]]]]] := first_shown Ef E2.
have [Ek Ec Esc Esh] : [/\ la_op d1 = la_op d, la_cfg d1 = la_cfg d, la_scale d1 = la_scale d & la_shape d1 = la_shape d].
  by move: E1; rewrite /analyze_fixed_point Eo Es eqxx => /analyze_at_keeps [-> -> -> ->]; split.
have Eo21 : o2 = o by move: Eo2; rewrite Eo => -[].
rewrite /analyze_fixed_point Ek Eo Esh Es eqxx.
move: S1 S2 Ne; rewrite Sh Sh2 => -[<-] [<-] /= Ne.
rewrite -Ec -Esc Eo21 in El2; case E: (analyze_at _ _ _ _ _ _ _) => [d2' r]; exists d2'.
by have := second_shown Eb Ep El2 E; case: eqP => // _ ->.
Qed.

(** With the same number it succeeds *)
Theorem C57_again sh d0 shape c d fp1 w1 d1 p1 fp2 w2 d2 p2 : call_fit np ex ks cplx sh d0 shape c = (d, Ok tt) ->
  (0 < count c)%N -> lc_opt (la_cfg d0) = OptBool false ->
  analyze d shape fp1 w1 = (d1, Ok tt) -> (shown d1).2 = Ok (Some p1) ->
  analyze d shape fp2 w2 = (d2, Ok tt) -> (shown d2).2 = Ok (Some p2) -> px_k p1 = px_k p2 ->
  exists d2', analyze d1 shape fp2 w2 = (d2', Ok tt).
Proof.
move=> Ef N0 Op E1 S1 E2 S2 Ne; have [o [l [A [b [Eo Es El [Sh Eb Ep Ell]]]]]] := first_shown Ef E1.
have [o2 [l2 [A2 [b2 [Eo2 _ El2 [Sh2 _ _ _]]]]]] := first_shown Ef E2.
have [Ek Ec Esc Esh] : [/\ la_op d1 = la_op d, la_cfg d1 = la_cfg d, la_scale d1 = la_scale d & la_shape d1 = la_shape d].
  by move: E1; rewrite /analyze_fixed_point Eo Es eqxx => /analyze_at_keeps [-> -> -> ->]; split.
have Eo21 : o2 = o by move: Eo2; rewrite Eo => -[].
move: S1 S2 Ne; rewrite Sh Sh2 => -[<-] [<-] /= Ne.
have [N [Sn [ES NS]]] := fit_snap Ef N0; have [_ [_ Ec0 _ _ _]] := call_fitP Ef.
have ES1 : la_snap d1 = Some (existT _ N Sn) by rewrite (analyze_snap E1).
rewrite -Ec -Esc Eo21 in El2; rewrite /analyze_fixed_point Ek Eo Esh Es eqxx /analyze_at El2 ES1.
have Am q (Phi : 'M[C]_(n, q)) e x : Model_EDMD.edmd_amplitudes np (lc_opt (la_cfg d1)) Sn Phi e <> Err x.
  by rewrite Ec Ec0 Op /Model_EDMD.edmd_amplitudes /= insubT.
rewrite /seen /shown /= Ep Eb; case: eqP => // e.
by case E': (Model_EDMD.edmd_amplitudes _ _ _ _ _) => [b'|x]; [eexists | case: (Am _ _ _ _ E')].
Qed.

(** ** Refuted: "linear is the operator of the last analysis".  Without compute_A it is that of an earlier one. *)
Theorem C57_linear_refuted d shape fp1 d1 fp2 d2 : analyze d shape fp1 true = (d1, Ok tt) ->
  analyze d1 shape fp2 false = (d2, Ok tt) -> linear d2 = linear d1.
Proof.
move=> /analyzeP [o [l [G [_ _ _ _ [_ _ _ [Ell EA _]]]]]] /analyzeP [o2 [l2 [G2 [_ _ _ _ [_ _ _ [Ell2 EA2 _]]]]]].
by rewrite /linear Ell Ell2 EA2.
Qed.
(** ** Refuted: a fit begins anew.  The bias, the operator and the fixed point of the former model stay. *)
Theorem C57_refit_refuted sh d0 shape c d fp w d1 sh' shape' c' d2 r : call_fit np ex ks cplx sh d0 shape c = (d, Ok tt) ->
  analyze d shape fp w = (d1, Ok tt) -> call_fit np ex ks cplx sh' d1 shape' c' = (d2, r) ->
  exists p, [/\ bias d2 = bias d1, linear d2 = linear d1, (shown d1).2 = Ok (Some p) &
    (seen d2).2 = Ok (Some (existT _ (px_k p) (px_modes p, px_eigs p)))].
Proof.
move=> Ef E1 /call_fit_keeps [H1 H2 H3 H4 H5].
have [o [l [A [b [Eo Es El [Sh Eb Ep Ell]]]]]] := first_shown Ef E1.
exists (Px (li_modes l) (li_eigs l) b); rewrite /bias /linear H1 H2 H3; split=> //.
by rewrite /seen /shown H1 Ell H5 H4.
Qed.
End Again.

(** ** Cases: one number, one pair 1 -> 1, the kernel (x y)^2, so that the model is z^2.  About 0 there is no eigenvalue,
    about 1 there is one. *)
Section Case.
Variable C : numClosedFieldType.
Local Notation np := (ideal C).
Local Notation ks := (@KPoly C 1 (Some 1) (Some 0) (Some 2%N)).
Local Notation lone := (pair_lando C 1).
Local Notation pt a := (const_mx a : 'cV[C]_1).
Lemma scalar_eigs r (a : C) : size (kept_eigs (np_eig np (a%:M : 'M[C]_r)).1) = if (10%:R ^+ 16)^-1 < `|a| then r else 0%N.
Proof.
have [_ [Eg _]] := ideal_contracts C; have [/= [H1 H2] _] := Eg r a%:M.
have Ew j : (np_eig np (a%:M : 'M[C]_r)).1 0 j = a.
  move: H1; rewrite mul_scalar_mx => /matrixP H; have := H2 j; set W := (ideal_eig _).2.
  case: (boolP [exists i, W i j != 0]) => [/existsP [i Wi] _|].
    have := H i j; rewrite mul_mx_diag !mxE mulrC => E; apply: (mulfI Wi); exact: esym E.
  rewrite negb_exists => /forallP H0; rewrite big1 => [/eqP|i _]; first by rewrite eq_sym oner_eq0.
  by have := H0 i; rewrite negbK => /eqP ->; rewrite normr0 expr0n.
rewrite /kept_eigs size_sort; under eq_filter do rewrite Ew; case: ifP => _; last by rewrite filter_pred0.
by rewrite filter_predT size_enum_ord.
Qed.
Lemma scalar_count ex (D : 'cV[C]_1) P Q (W : 'cV[C]_1) (fp sc : 'cV[C]_1) l (a : C) :
  linear_operator np ex ks (Model_Utils.RInt (BinNums.Zpos BinNums.xH)) (@LOp C 1 1 D P Q W) fp sc = Ok (l, a%:M) ->
  li_k l = ((10%:R ^+ 16)^-1 < `|a|)%R :> nat.
Proof.
have [Sv _] := ideal_contracts C.
rewrite /linear_operator; case: (scaled_gradient _ _ _ _ _) => [G|] //; rewrite /bind; cbv zeta.
have [UU _ _ _ _] := @Proofs_CDMD.compute_svd_facts C np _ _ G^T (Model_Utils.RInt (BinNums.Zpos BinNums.xH)) (Sv _ _ G^T).
have r1 : sv_r (compute_svd np G^T (Model_Utils.RInt (BinNums.Zpos BinNums.xH))) = 1%N.
  by rewrite Proofs_CDMD.compute_svdE /= /ideal_rank /= inordK.
move: UU r1; set sv := compute_svd _ _ _ => UU r1; rewrite /lo_W => E.
have Ea : W *m G = a%:M by move: E; case: (np_eig _ _) => w V [].
move: E; rewrite Ea -scalemx1 -scalemxAr mulmx1 -scalemxAl UU scalemx1.
have := scalar_eigs (sv_r sv) a; case: (np_eig _ _) => w V /= Hs [<- ] /=.
by rewrite Hs r1; case: ifP.
Qed.
(** the fit, the analysis of the fitted object about a, and what it shows *)
Lemma square_fit ex : exists d, call_fit np ex ks false (fun N => id) lone [:: 1%N] (Pair (pt 1) (pt 1)) = (d, Ok tt) /\
  forall a w, exists d' p, [/\ analyze_fixed_point np ex ks d [:: 1%N] (pt a) w = (d', Ok tt), (shown d').2 = Ok (Some p),
    px_k p = ((10%:R ^+ 16)^-1 < `|2%:R * a|)%R :> nat & w -> linear d' = Ok (Some (2%:R * a)%:M)].
Proof.
have [_ [_ [Ls _]]] := ideal_contracts C.
have dt (u v : C) : dot (pt u) (pt v) = u * v by rewrite /dot mxE big_ord1 !mxE.
have k1 : kernel ex ks (pt 1) (pt 1) = 1 by rewrite /kernel dt !mul1r addr0 expr1n.
have k0 : kernel ex ks (pt 1) (pt 1) != 0 by rewrite k1 oner_eq0.
have [d [o [Ef Eo Esc Ec [P' [Q Eop]]]]] := pair_fit false Ls (pt 1) k0; exists d; split=> // a w.
have [d' Ea] := C47_analysis (pt a) w Ef (ltn0Sn 0) erefl.
have [o1 [l [A [b [Eo1 Es El [Sh Eb Ep Ell]]]]]] := first_shown Ef Ea.
have [o2 [l2 [G [Eo2 _ EG El2 [_ _ _ [Ell2 EA _]]]]]] := analyzeP Ea.
have E1 : o1 = LOp (pt 1) P' Q ((kernel ex ks (pt 1) (pt 1))^-1 *: pt 1) by move: Eo1; rewrite Eo Eop => -[].
have E2 : o2 = LOp (pt 1) P' Q ((kernel ex ks (pt 1) (pt 1))^-1 *: pt 1) by move: Eo2; rewrite Eo Eop => -[].
subst o1 o2; have EWG : lo_W (LOp (pt 1) P' Q ((kernel ex ks (pt 1) (pt 1))^-1 *: pt 1)) *m G = (2%:R * a)%:M.
  rewrite k1 invr1 scale1r; move: EG; rewrite Esc scale1 /scaled_gradient /gmat /bind => -[<-].
  apply/matrixP => i j; rewrite !ord1 mxE big_ord1 !mxE /= ?mxE (_ : col 0 (pt 1) = pt 1) ?dt ?eqxx ?mulr1n ?mul1r ?mulr1 ?add0r ?expr1 //; exact: col_id.
exists d', (Px (li_modes l) (li_eigs l) b); split=> //.
  by rewrite El in El2; case: El2 => _ EA'; rewrite EA' EWG Ec in El; exact: (scalar_count El).
by move=> W; rewrite /linear Ell2 EA W EWG.
Qed.
(** the second analysis raises IndexError *)
Example C57_case ex : exists d d1 d2,
  [/\ call_fit np ex ks false (fun N => id) lone [:: 1%N] (Pair (pt 1) (pt 1)) = (d, Ok tt),
      analyze_fixed_point np ex ks d [:: 1%N] (pt 0) true = (d1, Ok tt) &
      analyze_fixed_point np ex ks d1 [:: 1%N] (pt 1) true = (d2, Err IndexError)].
Proof.
have [d [Ef H]] := square_fit ex; have [d1 [p1 [E1 S1 K1 _]]] := H 0 true; have [d2 [p2 [E2 S2 K2 _]]] := H 1 true.
have [d2' E] : exists d2', analyze_fixed_point np ex ks d1 [:: 1%N] (pt 1) true = (d2', Err IndexError).
  apply: (C57_count_refuted Ef E1 S1 E2 S2); rewrite K1 K2 mulr0 mulr1 normr0 normr_nat lt_gtF ?invr_gt0 ?exprn_gt0 ?ltr0n //.
  have -> // : (10%:R ^+ 16)^-1 < 2%:R :> C; apply: lt_le_trans (_ : 1 <= _); last by rewrite ler1n.
  by rewrite invf_lt1 ?exprn_gt0 ?ltr0n // exprn_egt1 // ltr1n.
by exists d, d1, d2'.
Qed.
(** two analyses with an eigenvalue each: linear, read after the second one, is the derivative at 1 and not at 2 *)
Example C57_case2 ex : exists d d1 d2 d2',
  [/\ call_fit np ex ks false (fun N => id) lone [:: 1%N] (Pair (pt 1) (pt 1)) = (d, Ok tt),
      analyze_fixed_point np ex ks d [:: 1%N] (pt 1) true = (d1, Ok tt),
      analyze_fixed_point np ex ks d1 [:: 1%N] (pt 2%:R) false = (d2, Ok tt) /\ linear d2 = Ok (Some 2%:R%:M) &
      analyze_fixed_point np ex ks d [:: 1%N] (pt 2%:R) true = (d2', Ok tt) /\ linear d2' = Ok (Some 4%:R%:M)].
Proof.
have [d [Ef H]] := square_fit ex; have [d1 [p1 [E1 S1 K1 L1]]] := H 1 true; have [d2f [p2f [E2f S2f K2f _]]] := H 2%:R false.
have [d2 [p2 [E2 _ _ L2]]] := H 2%:R true.
have big (m : nat) : (0 < m)%N -> (10%:R ^+ 16)^-1 < `|m%:R| :> C.
  move=> m0; rewrite normr_nat; apply: lt_le_trans (_ : 1 <= _); last by rewrite ler1n.
  by rewrite invf_lt1 ?exprn_gt0 ?ltr0n // exprn_egt1 // ltr1n.
have Kk : px_k p1 = px_k p2f by rewrite K1 K2f mulr1 -natrM !big.
have [d2' E] := C57_again Ef (ltn0Sn 0) erefl E1 S1 E2f S2f Kk.
exists d, d1, d2', d2; split=> //; split=> //.
  by rewrite (C57_linear_refuted E1 E) L1 // mulr1.
by rewrite L2 // -natrM.
Qed.
End Case.
Print Assumptions C57_update.
Print Assumptions C57_read_refuted.
Print Assumptions C57_amplitudes_refuted.
Print Assumptions C57_count_refuted.
Print Assumptions C57_again.
Print Assumptions C57_linear_refuted.
Print Assumptions C57_refit_refuted.
Print Assumptions C57_case.
Print Assumptions C57_case2.
