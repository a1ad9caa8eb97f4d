(** * C17 for BOPDMD, C54 (fit_econ), C55 (modes, amplitudes, forecast) *)
From Coq Require Import QArith Lia.
From mathcomp Require Import all_ssreflect all_fingroup all_algebra all_field.
From Verif Require Import Py LinAlg Model_Operator Spec_Operator Proofs_OpCore Proofs_Operator Proofs_Subspace Ideal Model_BOP Spec_BOP.
From Verif Require Import Proofs_BOPEig Proofs_BOPVar Proofs_BOPJac Proofs_BOPBag Proofs_BOP Properties_BOP Properties_BOPBag.
From Verif Require Model_Utils.
Set Implicit Arguments. Unset Strict Implicit. Unset Printing Implicit Defensive.
Import Order.TTheory GRing.Theory Num.Theory.
Local Open Scope ring_scope.

Section Main.
Variable C : numClosedFieldType.
Variables (np : numpy C) (x : ext C).

(** a positive integer svd_rank keeps that many singular values, or all of them *)
Definition int_rank_ok : Prop := forall k (s : 'rV[C]_k) n m z, (0 < z)%N ->
  np_rank np s n m (Model_Utils.RInt (BinInt.Z.of_nat z)) = minn z k :> nat.

(** ** C55: modes and amplitudes of an unbagged, projected fit *)
(** the modes are the basis times columns that are of unit length, or zero when their share is below 10 eps of
    the largest; the amplitudes are those shares; multiplied together they give back the coefficients [B] of the
    fit, which are least-squares optimal for the eigenvalues *)
Definition share r q (B : 'M[C]_(r, q)) (j : 'I_r) : C := sqrtC (\sum_i `|B j i| ^+ 2).
Definition negligible r q (B : 'M[C]_(r, q)) (j : 'I_r) : Prop := exists k, share B j < 10%:R * feps C * share B k.

Lemma tiny_negl r q (B : 'M[C]_(r, q)) j : reflect (negligible B j) (tiny_col (col_norms B^T) j).
Proof.
have E k : col_norms B^T 0 k = share B k by rewrite mxE /share; congr sqrtC; apply: eq_bigr=> i _; rewrite mxE.
by apply: (iffP (tinyP _ _))=> -[k L]; exists k; move: L; rewrite !E.
Qed.

Lemma cast_lstsq a b p p' (E : p' = p) (A : 'M[C]_(a, b)) (H : 'M[C]_(a, p)) (B : 'M[C]_(b, p')) :
  is_lstsq A (castmx (erefl, esym E) H) B -> is_lstsq A H (castmx (erefl, E) B).
Proof. by move: H B; case: p / E => H B; rewrite !castmx_id. Qed.

Lemma trial_modes (cfg : bop_cfg C) o n q (P : 'M[C]_(n, q)) m (X : 'M[C]_(n, m)) t r (al0 : 'rV[C]_r) u :
  bc_proj cfg -> bc_prox cfg = None -> (forall a b (A : 'M[C]_(a, b)) y, lstsq_ok np A y) ->
  single_trial np x o P (fit_data cfg P X) t al0 = Ok u ->
  exists (B : 'M[C]_(r, q)) (W : 'M[C]_(q, r)),
    [/\ is_lstsq (exp_mx x t (to_e u)) (adj P *m X)^T B, to_w u = P *m W,
        forall j, 0 <= to_b u 0 j,
        forall j, ~ negligible B j -> (B != 0 -> \sum_i `|W i j| ^+ 2 = 1) /\ to_b u 0 j = share B j /\ forall i, W i j * to_b u 0 j = B j i &
        forall j, negligible B j -> to_b u 0 j = 0 /\ forall i, W i j = 0] /\
    (forall G, is_pinv W (np_pinv np W) -> G *m W = 1%:M -> to_At u *m W = W *m diag_mx (to_e u)).
Proof.
move=> Pr Px Ls; pose D := data_cols_proj n q Pr; rewrite (fit_dataE P X D Pr).
move=> /trialP [v EV [E1 E2 E3 E4 _]].
have PU : prox_unprojected cfg = None by rewrite /prox_unprojected Pr.
rewrite PU in EV; have [Ef _] := varpro_result EV; rewrite /fitted /= in Ef.
move: E4; rewrite (lift_proj _ _ _ _ Pr Px) -/D => -[EW EA].
have EB2 : mode_amps (castmx (erefl, D) (vp_B v))^T = mode_amps (vp_B v)^T by exact: cast_amps.
have LS : is_lstsq (exp_mx x t (to_e u)) (adj P *m X)^T (castmx (erefl, D) (vp_B v)).
  have := lstsq_mxP (fun j => Ls _ _ (exp_mx x t (vp_alpha v)) (col j (castmx (erefl m, esym D) (adj P *m X)^T))).
  by rewrite E1 Ef; exact: cast_lstsq.
move: LS EW EA EB2; move: (castmx _ (vp_B v)) => B LS EW EA EB2.
exists B, (unit_modes B^T); rewrite E2 -EB2; split; first split=> //.
- by move=> j; exact: amps_ge0.
- move=> j /tiny_negl T; split; first by move=> B0; apply: unit_norm=> //; rewrite trmx_eq0.
  split; first by rewrite [mode_amps _ _ _]mxE (negbTE T) mxE /share; congr sqrtC; apply: eq_bigr=> i _; rewrite mxE.
  move=> i; have -> : unit_modes B^T i j * mode_amps B^T 0 j = (unit_modes B^T *m diag_mx (mode_amps B^T)) i j.
    by rewrite mul_mx_diag [RHS]mxE.
  by rewrite unit_amps mxE (negbTE T) mxE.
- by move=> j /tiny_negl T; split=> [|i]; rewrite mxE T.
move=> G Hp GW; rewrite EA /propagator E1 -mulmxA.
have [P1 _ _ _] := Hp.
have -> : np_pinv np (unit_modes B^T) *m unit_modes B^T = 1%:M.
  by rewrite -[LHS]mul1mx -GW -(mulmxA G) (mulmxA (unit_modes _)) P1 GW.
by rewrite mulmx1.
Qed.

Theorem C55_modes fuel n (d d' : bop C n) m (X : 'M[C]_(n, m)) flat (t : 'rV[C]_m) :
  bc_proj (b_cfg d) -> bc_prox (b_cfg d) = None -> bc_trials (b_cfg d) <= 0 ->
  (forall a b (A : 'M[C]_(a, b)) y, lstsq_ok np A y) ->
  bop_fit np x fuel d X flat t = Some (d', Ok tt) ->
  exists q r (P : 'M[C]_(n, q)) (u : bop_op C n q r) (B : 'M[C]_(r, q)) (W : 'M[C]_(q, r)),
    [/\ b_basis d' = Some (existT _ q P), b_op d' = Some (Some (existT _ q (existT _ r u))),
        bo_std u = None,
        is_lstsq (\matrix_(j, l) x_exp x (t 0 j * bo_eigs u 0 l)) (adj P *m X)^T B & bo_modes u = P *m W] /\
    [/\ forall j, 0 <= bo_b u 0 j,
        forall j, ~ negligible B j -> (B != 0 -> \sum_i `|W i j| ^+ 2 = 1) /\ bo_b u 0 j = share B j /\
                                      forall i, W i j * bo_b u 0 j = B j i,
        forall j, negligible B j -> bo_b u 0 j = 0 /\ forall i, W i j = 0 &
        is_pinv W (np_pinv np W) -> (exists G, G *m W = 1%:M) -> bo_At u *m W = W *m diag_mx (bo_eigs u)].
Proof.
move=> Pr Px Tr Ls /fitP [_ [e [q [P [r [al [o [u [_ _ _ EC ->]]]]]]]]].
rewrite (eq_irrelevance e erefl) castmx_id in EC; have [w Ew Eu] := operator1 Tr EC.
have [B [W [[L1 L2 L3 L4 L5] L6]]] := trial_modes Pr Px Ls Ew.
by exists q, r, P, u, B, W; rewrite Eu /=; split; [|split=> // Hp [G EG]; exact: L6 Hp EG].
Qed.

(** ** C55: forecast *)
Theorem C55_forecast k0 n (d : bop C n) q r (u : bop_op C n q r) k (s : 'rV[C]_k) :
  b_op d = Some (Some (existT _ q (existT _ r u))) -> bo_std u = None ->
  exists F, forecast x k0 d true s = Ok (Plain F) /\
    forall i j, F i j = \sum_(l < r) bo_modes u i l * bo_b u 0 l * x_exp x (bo_eigs u 0 l * s 0 j).
Proof.
move=> Eo Es; exists (predict x (bo_modes u) (bo_eigs u) (bo_b u) s); rewrite /forecast Eo Es; split=> // i j.
by rewrite /predict mxE; apply: eq_bigr=> l _; rewrite mul_mx_diag mxE [exp_rows _ _ _ _ _]mxE.
Qed.

Theorem C55_forecast_errors k0 n (d : bop C n) flat k (s : 'rV[C]_k) e : forecast x k0 d flat s = Err e ->
  [\/ ~~ flat /\ e = ValueError, b_op d = None /\ e = AttributeError, b_op d = Some None /\ e = ValueError |
      exists q r (u : bop_op C n q r) sd, [/\ b_op d = Some (Some (existT _ q (existT _ r u))), bo_std u = Some sd,
        b_snap d = None & e = AttributeError]].
Proof.
rewrite /forecast; case: flat=> [/=|[<-]]; last exact: Or41.
case: (b_op d)=> [[[q [r u]]|]|]; [|by move=> [<-]; apply: Or43|by move=> [<-]; apply: Or42].
case Es : (bo_std u)=> [[[a b] c]|//]; case Eb : (b_snap d)=> // -[<-]; apply: Or44.
by exists q, r, u, (a, b, c).
Qed.

(** bagged: the mean of num_trials draws, and their variance *)
Theorem C55_spread k0 n (d : bop C n) q r (u : bop_op C n q r) sw se sb k (s : 'rV[C]_k) X N :
  b_op d = Some (Some (existT _ q (existT _ r u))) -> bo_std u = Some (sw, se, sb) -> b_snap d = Some X ->
  bc_trials (b_cfg d) = N%:Z ->
  exists A V, forecast x k0 d true s = Ok (Spread A V) /\ forall i j,
    let draw (l : nat) := \sum_(a < r) bo_modes u i a * (bo_b u 0 a + x_randn x (k0 + l.*2).+1 r 0 a * sb 0 a) *
                            x_exp x ((bo_eigs u 0 a + x_randn x (k0 + l.*2) r 0 a * se 0 a) * s 0 j) in
    [/\ A i j = avg [seq draw l | l <- iota 0 N], V i j = var [seq draw l | l <- iota 0 N] & 0 <= V i j].
Proof.
move=> Eo Es Eb EN; rewrite /forecast Eo Es Eb; do 2!eexists; split=> [|i j]; first by reflexivity.
have D l : predict x (bo_modes u) (bo_eigs u + mul_rows (x_randn x (k0 + l.*2)%N r) se)
                  (bo_b u + mul_rows (x_randn x (k0 + l.*2).+1 r) sb) s i j =
   \sum_(a < r) bo_modes u i a * (bo_b u 0 a + x_randn x (k0 + l.*2).+1 r 0 a * sb 0 a) *
                            x_exp x ((bo_eigs u 0 a + x_randn x (k0 + l.*2) r 0 a * se 0 a) * s 0 j).
  by rewrite /predict mxE; apply: eq_bigr=> a _; rewrite mul_mx_diag !mxE.
have AZ : `|bc_trials (b_cfg d)|%N = N by rewrite EN.
have Av (f : nat -> C) : mean (fun l : 'I_`|bc_trials (b_cfg d)|%N => f l) = avg [seq f l | l <- iota 0 N].
  by rewrite /mean /avg size_map size_iota big_map AZ -(big_mkord xpredT f) /index_iota subn0.
have EA : mean (fun l : 'I_`|bc_trials (b_cfg d)|%N => predict x (bo_modes u) (bo_eigs u + mul_rows (x_randn x (k0 + l.*2)%N r) se)
                  (bo_b u + mul_rows (x_randn x (k0 + l.*2).+1 r) sb) s i j) =
  avg [seq (\sum_(a < r) bo_modes u i a * (bo_b u 0 a + x_randn x (k0 + l.*2).+1 r 0 a * sb 0 a) *
                            x_exp x ((bo_eigs u 0 a + x_randn x (k0 + l.*2) r 0 a * se 0 a) * s 0 j)) | l <- iota 0 N].
  by rewrite -Av /mean; congr (_ / _); apply: eq_bigr=> l _; rewrite D.
pose draw (l : nat) := \sum_(a < r) bo_modes u i a * (bo_b u 0 a + x_randn x (k0 + l.*2).+1 r 0 a * sb 0 a) *
                            x_exp x ((bo_eigs u 0 a + x_randn x (k0 + l.*2) r 0 a * se 0 a) * s 0 j).
have EV : (\matrix_(i0, j0) mean (fun l : 'I_`|bc_trials (b_cfg d)|%N => `|predict x (bo_modes u) (bo_eigs u + mul_rows (x_randn x (k0 + l.*2)%N r) se)
                  (bo_b u + mul_rows (x_randn x (k0 + l.*2).+1 r) sb) s i0 j0 - (\matrix_(i0, j0) mean (fun l : 'I_`|bc_trials (b_cfg d)|%N => predict x (bo_modes u) (bo_eigs u + mul_rows (x_randn x (k0 + l.*2)%N r) se)
                  (bo_b u + mul_rows (x_randn x (k0 + l.*2).+1 r) sb) s i0 j0)) i0 j0| ^+ 2)) i j = var [seq draw l | l <- iota 0 N].
  rewrite [LHS]mxE /var -map_comp -Av /mean; congr (_ / _); apply: eq_bigr=> l _ /=.
  by move: EA; rewrite /mean => EA1; rewrite [in LHS](mxE matrix_key _ i j) EA1 D.
split; [by rewrite mxE EA|exact: EV|]; by rewrite [X in _ <= X]EV var_ge0.
Qed.

(** exact data: if X is a sum of exponentials with the given eigenvalues whose spatial parts Phi lie in the span
    of the basis, and no part is below 10 eps of another, the model continues it at every time *)
Lemma gram_share n q (P : 'M[C]_(n, q)) r (Z : 'M[C]_(q, r)) : adj P *m P = 1%:M ->
  forall j, share Z^T j = sqrtC (\sum_i `|(P *m Z) i j| ^+ 2).
Proof.
move=> PP j; rewrite /share; congr sqrtC.
have F a b (A : 'M[C]_(a, b)) (l : 'I_b) : \sum_i `|A i l| ^+ 2 = (adj A *m A) l l.
  by rewrite mxE; apply: eq_bigr=> i _; rewrite normCKC !mxE.
rewrite F adjM -mulmxA (mulmxA (adj P)) PP mul1mx -F; apply: eq_bigr=> i _; by rewrite mxE.
Qed.

Theorem C55_exact fuel k0 n (d d' : bop C n) m (X : 'M[C]_(n, m)) (t : 'rV[C]_m) r (al : 'rV[C]_r) (Phi : 'M[C]_(n, r))
    q (P : 'M[C]_(n, q)) :
  bc_proj (b_cfg d) -> bc_prox (b_cfg d) = None -> bc_trials (b_cfg d) <= 0 ->
  (forall a b (A : 'M[C]_(a, b)), norm_ok np A) -> (forall a b (A : 'M[C]_(a, b)) y, lstsq_ok np A y) ->
  b_alpha d = Some (existT _ r al) -> push x (bc_con (b_cfg d)) al = Ok al ->
  (forall i j, X i j = \sum_l Phi i l * x_exp x (t 0 j * al 0 l)) ->
  (exists G, G *m (\matrix_(j, l) x_exp x (t 0 j * al 0 l)) = 1%:M) ->
  (forall j l, 10%:R * feps C * sqrtC (\sum_i `|Phi i l| ^+ 2) <= sqrtC (\sum_i `|Phi i j| ^+ 2)) ->
  bop_fit np x fuel d X true t = Some (d', Ok tt) ->
  b_basis d' = Some (existT _ q P) -> adj P *m P = 1%:M -> P *m adj P *m Phi = Phi ->
  forall k (s : 'rV[C]_k), exists2 F, forecast x k0 d' true s = Ok (Plain F) &
    forall i j, F i j = \sum_l Phi i l * x_exp x (al 0 l * s 0 j).
Proof.
move=> Pr Px Tr No Ls Ea Pu EX [G EG] Nt /fitP [_ [e [q1 [P1 [r1 [al1 [o [u [_ EA _ EC ->]]]]]]]]] /=.
rewrite (eq_irrelevance e erefl) castmx_id in EA EC; case=> Eq; case: _ / Eq P => P [] EP.
have {EP} EP := Eqdep_dec.inj_pair2_eq_dec _ PeanoNat.Nat.eq_dec _ _ _ _ EP; subst P1.
move: EA; rewrite /get_alpha /= Ea; case: ifP=> // _ [Er]; case: _ / Er al1 u EC => al1 u EC EP.
have {EP} EP := Eqdep_dec.inj_pair2_eq_dec _ PeanoNat.Nat.eq_dec _ _ _ _ EP; subst al1.
move=> PP PF k s.
have [w Ew Eu] := operator1 Tr EC; rewrite /forecast /= Eu /=.
have EX2 : X = P *m (exp_mx x t al *m (adj P *m Phi)^T)^T.
  rewrite trmx_mul trmxK !mulmxA PF; apply/matrixP=> i j; rewrite EX mxE; apply: eq_bigr=> l _; by rewrite !mxE.
have [B [EB [-> -> ->] _ _]] := trial_exact Pr Px No Ls Pu PP EX2 Ew.
eexists; first by reflexivity.
have {EB} EB : B = (adj P *m Phi)^T by rewrite -[B]mul1mx -EG -mulmxA -/(exp_mx x t al) EB mulmxA EG mul1mx.
have ND : drop_tiny B^T = B^T.
  apply/matrixP=> i j; rewrite [LHS]mxE; case: tiny_negl=> // -[l]; rewrite EB !(gram_share _ PP) mulmxA PF.
  by move=> L; have := le_lt_trans (Nt j l) L; rewrite ltxx.
rewrite predictE ND trmxK EB trmx_mul trmxK !mulmxA PF => i j; rewrite mxE; apply: eq_bigr=> l _.
by rewrite !mxE mulrC (mulrC (s 0 j)) mulrC.
Qed.

(** ** C54: fit_econ *)
Definition forget_snap n (d : bop C n) : bop C n :=
  Bop (b_cfg d) (b_rank d) (b_basis d) (b_alpha d) None (b_time d) (b_op d).

(** with the truncated SVD of the data and its basis, fit_econ does what fit does, and keeps no snapshots *)
Theorem C54_same fuel n (d : bop C n) q (P : 'M[C]_(n, q)) (s : 'rV[C]_q) m (V : 'M[C]_(q, m)) flat k (t : 'rV[C]_k) :
  let X := P *m diag_mx s *m V in
  bc_proj (b_cfg d) -> b_basis d = Some (existT _ q P) -> adj P *m P = 1%:M ->
  b_rank d = Model_Utils.RInt (BinInt.Z.of_nat q) -> np_rank np (np_svd np X).1.2 n m (b_rank d) = q :> nat ->
  bop_fit_econ np x fuel d s V flat t = omap (fun z => (forget_snap z.1, z.2)) (bop_fit np x fuel d X flat t).
Proof.
move=> X Pr Eb PP Er En; rewrite /bop_fit_econ /bop_fit Eb.
case: {-}_ / idP=> [Pr'|]; last by rewrite Pr.
have RI : rank_is (b_rank d) q by rewrite /rank_is Er /=; apply/Qeq_bool_iff.
rewrite RI /=; case: flat=> //=.
case: (@eqP _ q q)=> // eq1; case: (@eqP _ k m)=> // e.
rewrite (eq_irrelevance eq1 erefl) !castmx_id.
rewrite /fit_from /econ_from /set_rank /= En -Er /get_basis /= RI /set_basis /get_alpha /=.
have EX : adj P *m X = diag_mx s *m V by rewrite /X !mulmxA PP mul1mx.
rewrite EX; case: (match b_alpha d with Some _ => _ | None => _ end)=> [[r al]|er] //=.
rewrite /run_operator /=; case: (bc_opts _)=> [o|] //=.
rewrite (fit_dataE P X (@data_cols_proj _ (b_cfg d) n q Pr') Pr) EX.
by case: (compute_operator _ _ _ _ _ _ _ _)=> [[u|e1]|].
Qed.

(** what fit_econ refuses *)
Theorem C54_errors fuel n (d d' : bop C n) a (s : 'rV[C]_a) p m (V : 'M[C]_(p, m)) flat k (t : 'rV[C]_k) :
  bop_fit_econ np x fuel d s V flat t = Some (d', Ok tt) ->
  [/\ bc_proj (b_cfg d), flat, k = m, a = p & exists P : 'M[C]_(n, a), b_basis d = Some (existT _ a P) /\ rank_is (b_rank d) a].
Proof.
rewrite /bop_fit_econ; case Eb : (b_basis d)=> [[q P]|//]; case: {-}_ / idP=> // Pr.
case R : (rank_is _ _)=> //=; case: flat=> //=; case: eqP=> // ea; case: eqP=> // ep; case: eqP=> // el _.
by rewrite Pr el ea ep; split=> //; exists P.
Qed.
Theorem C54_refuses fuel n (d : bop C n) a (s : 'rV[C]_a) p m (V : 'M[C]_(p, m)) flat k (t : 'rV[C]_k) :
  [\/ ~~ bc_proj (b_cfg d), b_basis d = None, ~~ flat | k != m \/ a != p \/
      exists q (P : 'M[C]_(n, q)), b_basis d = Some (existT _ q P) /\ (~~ rank_is (b_rank d) q \/ a != q)] ->
  exists d', bop_fit_econ np x fuel d s V flat t = Some (d', Err ValueError) /\ b_op d' = None.
Proof.
rewrite /bop_fit_econ; case Eb : (b_basis d)=> [[q P]|]; last by eexists.
case: {-}_ / idP=> Pr; last by eexists.
case R : (rank_is _ _)=> /=; last by eexists.
case: flat=> /=; last by eexists.
case: eqP=> ea; last by eexists.
case: eqP=> ep; last by eexists.
case: eqP=> el; last by eexists.
case; rewrite ?Pr // => -[/eqP //|[/eqP []|[q1 [P1 [[E1 _]]]]]]; first by rewrite ea ep.
by rewrite -E1 R => -[|/eqP].
Qed.

(** Refuted: "a model fitted with fit_econ can forecast": not after bagging *)
Theorem C54_bagged_forecast_refuted fuel k0 n (d d' : bop C n) a (s : 'rV[C]_a) p m (V : 'M[C]_(p, m)) flat k (t : 'rV[C]_k) l (u : 'rV[C]_l) :
  0 < bc_trials (b_cfg d) -> bop_fit_econ np x fuel d s V flat t = Some (d', Ok tt) ->
  forecast x k0 d' true u = Err AttributeError.
Proof.
move=> N0; rewrite /bop_fit_econ; case Eb : (b_basis d)=> [[q P]|//]; case: {-}_ / idP=> // Pr.
case R : (rank_is _ _)=> //=; case: flat=> //=; case: eqP=> // ea; case: eqP=> // ep; case: eqP=> // el.
rewrite /econ_from; case: (get_alpha _ _ _ _)=> [[r al]|//]; rewrite /run_operator /=.
case: (bc_opts _)=> // o; case EC : (compute_operator _ _ _ _ _ _ _ _)=> [[w|]|] // [<-].
rewrite /forecast /=; move: EC; rewrite /compute_operator; case: (single_trial _ _ _ _ _ _ _)=> // t0.
by rewrite leNgt N0 /=; case: (bag_loop _ _ _ _ _ _ _ _)=> [[S'|]|] // [<-].
Qed.

(** ** C17: what a second fit keeps *)
(** [later d d']: d' comes from d by calls of fit, successful or not *)
Inductive later n : bop C n -> bop C n -> Prop :=
| later_refl d : later d d
| later_fit d d1 d2 fuel m (X : 'M[C]_(n, m)) flat k (t : 'rV[C]_k) e :
    later d d1 -> bop_fit np x fuel d1 X flat t = Some (d2, e) -> later d d2.

Lemma fit_keeps fuel n (d d' : bop C n) m (X : 'M[C]_(n, m)) flat k (t : 'rV[C]_k) e q (P : 'M[C]_(n, q)) r (al : 'rV[C]_r) :
  b_basis d = Some (existT _ q P) -> b_alpha d = Some (existT _ r al) -> bop_fit np x fuel d X flat t = Some (d', e) ->
  [/\ b_cfg d' = b_cfg d, b_basis d' = b_basis d & exists al' : 'rV[C]_r, b_alpha d' = Some (existT _ r al')].
Proof.
move=> Eb Ea; rewrite /bop_fit; case: flat=> [/=|[<- _]]; last by split=> //=; exists al.
case: eqP=> [ek|_ [<- _]]; last by split=> //=; exists al.
rewrite /fit_from /set_rank /=; set k0 := nat_of_ord _; rewrite /get_basis /= Eb.
case: ifP=> [_|_ [<- _]]; last by split=> //=; exists al.
rewrite /get_alpha /= Ea; case: ifP=> [_|_ [<- _]]; last by split=> //=; exists al.
rewrite /run_operator /=; case: (bc_opts _)=> [o|[<- _]]; last by split=> //=; exists al.
by case: (compute_operator _ _ _ _ _ _ _ _)=> [[u|e1]|] // [<- _]; split=> //=; eexists.
Qed.

Theorem C17_bopdmd_keeps_basis fuel n (d d1 d2 d3 : bop C n) m (X : 'M[C]_(n, m)) flat k (t : 'rV[C]_k)
    fuel3 m3 (X3 : 'M[C]_(n, m3)) flat3 k3 (t3 : 'rV[C]_k3) :
  bc_proj (b_cfg d) -> bc_prox (b_cfg d) = None ->
  bop_fit np x fuel d X flat t = Some (d1, Ok tt) -> later d1 d2 -> bop_fit np x fuel3 d2 X3 flat3 t3 = Some (d3, Ok tt) ->
  exists q (P : 'M[C]_(n, q)) r (u1 u3 : bop_op C n q r) (Z : 'M[C]_(q, r)),
    [/\ b_basis d1 = Some (existT _ q P), b_basis d3 = Some (existT _ q P),
        b_op d1 = Some (Some (existT _ q (existT _ r u1))), b_op d3 = Some (Some (existT _ q (existT _ r u3))) &
        bo_modes u3 = P *m Z].
Proof.
move=> Pr Px /fitP [_ [e [q [P [r [al [o [u [_ _ _ _ E1]]]]]]]]] L /fitP F3.
have [Ec Eb [al2 Ea]] : [/\ b_cfg d2 = b_cfg d, b_basis d2 = Some (existT _ q P) & exists al' : 'rV[C]_r, b_alpha d2 = Some (existT _ r al')].
  elim: L E1=> {d1 d2 F3 X3 t3} [d1 ->|d0 d1 d2 f m0 X0 fl k1 t0 e0 L IH H E1]; first by split=> //=; eexists.
  have [Ec Eb [a Ea]] := IH E1; have [-> -> [a' Ea']] := fit_keeps Eb Ea H.
  by rewrite Ec Eb; split=> //; exists a'.
case: F3=> _ [e3 [q3 [P3 [r3 [al3 [o3 [u3 [EB EA _ EC E3]]]]]]]].
move: EB; rewrite /get_basis /= Eb; case: ifP=> // _ [Eq]; case: _ / Eq P3 u3 EA EC E3 => P3 u3 EA EC E3 EP.
have {EP} EP := Eqdep_dec.inj_pair2_eq_dec _ PeanoNat.Nat.eq_dec _ _ _ _ EP; subst P3.
move: EA; rewrite /get_alpha /= Ea; case: ifP=> // _ [Er]; case: _ / Er al3 u3 EC E3 => al3 u3 EC E3 _.
rewrite Ec in EC; have [Z EZ] := operator_span Pr Px EC.
by exists q, P, r, u, u3, Z; rewrite E1 E3.
Qed.

(** a first fit of rank k rejects later data of fewer than k rows or columns, which a fresh instance with an
    automatic rank would fit *)
Theorem C17_bopdmd_keeps_rank fuel n (d d1 : bop C n) m (X : 'M[C]_(n, m)) flat k (t : 'rV[C]_k)
    fuel2 m2 (X2 : 'M[C]_(n, m2)) (t2 : 'rV[C]_m2) :
  int_rank_ok -> bc_proj (b_cfg d) ->
  bop_fit np x fuel d X flat t = Some (d1, Ok tt) ->
  exists K, b_rank d1 = Model_Utils.RInt (BinInt.Z.of_nat K) /\
   ((minn n m2 < K)%N -> exists d2, bop_fit np x fuel2 d1 X2 true t2 = Some (d2, Err ValueError)).
Proof.
move=> IR Pr /fitP [_ [e [q [P [r [al [o [u [EB _ _ _ ->]]]]]]]]] /=.
set K := nat_of_ord _ in EB *; exists K; split=> // LK.
have EK : K = q.
  move: EB; rewrite /get_basis /=; case: (b_basis d)=> [[q1 P1]|] /=; last first.
    rewrite Pr => -[Eq _]; rewrite -Eq /compute_svd.
    have -> rr : sv_r (svd_trunc np X rr) = rr by rewrite /svd_trunc; case: (np_svd np X) rr => [[]].
    rewrite IR ?(leq_ltn_trans _ LK) //; apply/esym/minn_idPl; rewrite -ltnS; exact: ltn_ord.
  case: ifP=> // + [Eq _]; rewrite -Eq /rank_is /= => /Qeq_bool_iff /inject_Z_injective /Znat.Nat2Z.inj ->.
  by [].
rewrite /bop_fit /=; case: eqP=> // e2; rewrite /fit_from /set_rank /=.
rewrite (IR _ _ _ _ K) ?(leq_ltn_trans _ LK) // /get_basis /=.
case R : (rank_is _ q); last by eexists.
move: R; rewrite /rank_is /= => /Qeq_bool_iff /inject_Z_injective /Znat.Nat2Z.inj E2.
by exfalso; have := geq_minr K (minn n m2); rewrite E2 -EK leqNgt LK.
Qed.

(** a fit without bagging and without pairing always ends well once basis and eigenvalues are accepted *)
Lemma fit_runs fuel n (d : bop C n) m (X : 'M[C]_(n, m)) (t : 'rV[C]_m) o q (P : 'M[C]_(n, q)) r (al : 'rV[C]_r) s :
  bc_opts (b_cfg d) = Some o -> bc_trials (b_cfg d) <= 0 -> bc_con (b_cfg d) = ConSet C s -> c_conj s = false ->
  let d2 := set_rank d (np_rank np (np_svd np X).1.2 n m (b_rank d)) in
  get_basis np d2 X = Ok (existT _ q P) -> get_alpha np d2 (adj P *m X) t = Ok (existT _ r al) ->
  exists d', bop_fit np x fuel d X true t = Some (d', Ok tt).
Proof.
move=> Eo Tr Ec Es d2 EB EA; rewrite /bop_fit /=; case: eqP=> // e; rewrite (eq_irrelevance e erefl) castmx_id /fit_from.
set d1 := set_rank _ _.
have -> : get_basis np d1 X = get_basis np d2 X by [].
rewrite EB.
have -> : get_alpha np (set_basis d1 P) (adj P *m X) t = get_alpha np d2 (adj P *m X) t by [].
rewrite EA /run_operator /= Eo /compute_operator Tr.
case E : (single_trial _ _ _ _ _ _ _)=> [w|er]; first by eexists.
move: E; rewrite /single_trial; case E : (variable_projection _ _ _ _ _ _ _ _)=> [v|e1] /=.
  by case: (lift_modes _ _ _ _).
by have [_ [s1]] := C41_errors E; rewrite Ec => -[<-]; rewrite Es.
Qed.

Lemma fit_state fuel n (d d' : bop C n) m (X : 'M[C]_(n, m)) flat k (t : 'rV[C]_k) :
  bop_fit np x fuel d X flat t = Some (d', Ok tt) -> forall r (al : 'rV[C]_r), b_alpha d = Some (existT _ r al) ->
  b_rank d' = Model_Utils.RInt (BinInt.Z.of_nat (np_rank np (np_svd np X).1.2 n m (b_rank d))) /\
  exists q P, [/\ get_basis np (set_rank d (np_rank np (np_svd np X).1.2 n m (b_rank d))) X = Ok (existT _ q P),
    b_basis d' = Some (existT _ q P), b_cfg d' = b_cfg d,
    b_alpha d' = Some (existT _ r (push_in_place (bc_con (b_cfg d)) al)) & True].
Proof.
move=> /fitP [_ [e [q [P [r [al [o [u [EB EA _ _ ->]]]]]]]]] r1 al1 Ea; split=> //; exists q, P; split=> //=.
have E : existT _ r1 al1 = existT (fun k => 'rV[C]_k) r al by move: EA; rewrite /get_alpha /= Ea; case: ifP=> // _ E; congruence.
by congr Some; have := congr1 (fun z : {k & 'rV[C]_k} => existT (fun k => 'rV[C]_k) (projT1 z) (push_in_place (bc_con (b_cfg d)) (projT2 z))) E => /= ->.
Qed.

(** the basis computed for data of the requested rank *)
Lemma basis_exact n m (X : 'M[C]_(n, m)) rk : svd_ok np X -> np_rank np (np_svd np X).1.2 n m rk = \rank X :> nat ->
  let u := compute_svd np X rk in exact_svd X (sv_U u) (sv_s u) (sv_V u).
Proof.
rewrite /compute_svd /svd_ok /svd_trunc; move: (np_rank _ _ _ _ _); case: (np_svd np X)=> [[U s] V] /= r HS Er.
by rewrite !take_colsE; apply: (sel_full HS Er); rewrite -ltnS; exact: ltn_ord.
Qed.

Lemma exact_span n m r (X : 'M[C]_(n, m)) (U : 'M[C]_(n, r)) s V : exact_svd X U s V ->
  [/\ adj U *m U = 1%:M, forall b (c : 'M[C]_(m, b)), U *m adj U *m (X *m c) = X *m c & exists Z, U = X *m Z].
Proof.
case=> E HU HV Hs; split=> //.
  by move=> b c; rewrite {1}E -!mulmxA (mulmxA (adj U)) HU mul1mx E -!mulmxA.
exists (V *m diag_mx (recip s)); rewrite E -!mulmxA (mulmxA (adj V)) HV mul1mx diag_recip // mulmx1 //.
Qed.

(** Refuted: "a fit depends only on configuration and data".  A constant system (1, 1), fitted with the
    eigenvalue 0 given, is reproduced by a fresh instance; an instance fitted before to (1, 0) predicts (., 0). *)
Theorem C17_bopdmd_refuted (cfg : bop_cfg C) o fuel k0 m (t : 'rV[C]_m) :
  bc_opts cfg = Some o -> bc_trials cfg <= 0 -> bc_con cfg = ConSet C (CSet false false false false) ->
  bc_proj cfg -> bc_prox cfg = None -> x_exp x 0 = 1 -> (0 < m)%N ->
  int_rank_ok -> (forall n' m' (A : 'M[C]_(n', m')), svd_ok np A) ->
  (forall a b (A : 'M[C]_(a, b)), norm_ok np A) -> (forall a b (A : 'M[C]_(a, b)) y, lstsq_ok np A y) ->
  let d : bop C 2 := Bop cfg (Model_Utils.RInt (Zpos xH)) None (Some (existT _ 1%N (0 : 'rV[C]_1))) None None None in
  let X1 : 'M[C]_(2, m) := \matrix_(i, j) (i == 0)%:R in let X2 : 'M[C]_(2, m) := const_mx 1 in
  exists d1 d2 d3 F2,
    [/\ bop_fit np x fuel d X1 true t = Some (d1, Ok tt), bop_fit np x fuel d1 X2 true t = Some (d2, Ok tt),
        forecast x k0 d2 true t = Ok (Plain F2) & forall j, F2 1 j = 0] /\
    bop_fit np x fuel d X2 true t = Some (d3, Ok tt) /\ forecast x k0 d3 true t = Ok (Plain X2).
Proof.
move=> Eo Tr Ec Pr Px E0 m0 IR Sv No Ls d X1 X2.
pose j0 := Ordinal m0.
have mm : (1 <= minn 2 m)%N by rewrite leq_min m0.
have R1 k (s : 'rV[C]_k) n' m' : (0 < k)%N -> np_rank np s n' m' (Model_Utils.RInt (Zpos xH)) = 1%N :> nat.
  by move=> k_gt0; rewrite (IR _ _ _ _ 1%N) //; apply/minn_idPl.
have Rk (c : 'cV[C]_2) : c 0 0 = 1 -> \rank (c *m (const_mx 1 : 'rV[C]_m)) = 1%N.
  move=> Hc; apply/eqP; rewrite eqn_leq (leq_trans (mxrankM_maxr _ _) (rank_leq_row _)) lt0n mxrank_eq0.
  by apply/eqP=> /matrixP/(_ 0 j0)/eqP; rewrite !mxE big_ord1 !mxE Hc mulr1 oner_eq0.
have EX1 : X1 = (\col_i (i == 0)%:R) *m (const_mx 1 : 'rV[C]_m) by apply/matrixP=> i j; rewrite !mxE big_ord1 !mxE mulr1.
have EX2 : X2 = (const_mx 1 : 'cV[C]_2) *m (const_mx 1 : 'rV[C]_m) by apply/matrixP=> i j; rewrite !mxE big_ord1 !mxE mulr1.
have r1 : \rank X1 = 1%N by rewrite EX1 Rk // mxE.
have r2 : \rank X2 = 1%N by rewrite EX2 Rk // mxE.
have Fit (X : 'M[C]_(2, m)) : \rank X = 1%N -> exists d', bop_fit np x fuel d X true t = Some (d', Ok tt).
  move=> _; have EB : get_basis np (set_rank d (np_rank np (np_svd np X).1.2 2 m (b_rank d))) X =
     Ok (existT _ _ (sv_U (compute_svd np X (Model_Utils.RInt (Zpos xH))))).
    by rewrite /get_basis /= Pr R1.
  have EA : get_alpha np (set_rank d (np_rank np (np_svd np X).1.2 2 m (b_rank d)))
     (adj (sv_U (compute_svd np X (Model_Utils.RInt (Zpos xH)))) *m X) t = Ok (existT _ 1%N (0 : 'rV[C]_1)).
    by rewrite /get_alpha /= R1.
  exact: (@fit_runs fuel 2 d m X t o _ _ _ _ _ Eo Tr Ec erefl EB EA).
have [d1 F1] := Fit X1 r1; have [d3 F3] := Fit X2 r2.
have St (X : 'M[C]_(2, m)) d' : \rank X = 1%N -> bop_fit np x fuel d X true t = Some (d', Ok tt) ->
   exists q (P : 'M[C]_(2, q)), [/\ b_cfg d' = cfg, b_basis d' = Some (existT _ q P), q = 1%N & exists s V, exact_svd X P s V] /\
     b_alpha d' = Some (existT _ 1%N (0 : 'rV[C]_1)) /\ b_rank d' = Model_Utils.RInt (Zpos xH).
  move=> rX /fit_state H; have {H} [ER [q [P [EB E1 E2 E3 _]]]] := H _ _ erefl.
  exists q, P; rewrite E2 E1 E3 /= Ec ER R1 //.
  move: EB; rewrite /get_basis /= Pr R1 // => -[Eq]; case: _ / Eq P E1 => P _ EP.
  have {EP} <- := Eqdep_dec.inj_pair2_eq_dec _ PeanoNat.Nat.eq_dec _ _ _ _ EP.
  have Ex : exact_svd X (sv_U (compute_svd np X (Model_Utils.RInt 1))) (sv_s (compute_svd np X (Model_Utils.RInt 1))) (sv_V (compute_svd np X (Model_Utils.RInt 1))).
    by apply: basis_exact; rewrite ?R1.
  by split=> //; split=> //; [rewrite (exact_rank Ex)|do 2!eexists; exact: Ex].
have [q [P [[Ec1 Eb1 Eq1 [s1 [V1 Ex1]]] [Ea1 Er1]]]] := St _ _ r1 F1.
have [q3 [P3 [[Ec3 Eb3 Eq3 [s3 [V3 Ex3]]] [Ea3 Er3]]]] := St _ _ r2 F3.
have [d2 F2] : exists d', bop_fit np x fuel d1 X2 true t = Some (d', Ok tt).
  have EB : get_basis np (set_rank d1 (np_rank np (np_svd np X2).1.2 2 m (b_rank d1))) X2 = Ok (existT _ q P).
    have RQ : rank_is (Model_Utils.RInt (Zpos xH)) q by rewrite Eq1.
    by rewrite /get_basis /= Eb1 Er1 R1 //= RQ.
  have EA : get_alpha np (set_rank d1 (np_rank np (np_svd np X2).1.2 2 m (b_rank d1))) (adj P *m X2) t = Ok (existT _ 1%N (0 : 'rV[C]_1)).
    by rewrite /get_alpha /= Ea1 Er1 R1.
  by rewrite -Ec1 in Eo Tr Ec; exact: (@fit_runs fuel 2 d1 m X2 t o _ _ _ _ _ Eo Tr Ec erefl EB EA).
have [_ Eb2 _] := fit_keeps Eb1 Ea1 F2; rewrite Eb1 in Eb2.
have Hs : [/\ bc_proj (b_cfg d1), bc_prox (b_cfg d1) = None & bc_trials (b_cfg d1) <= 0] by rewrite Ec1.
case: Hs=> Pr1 Px1 Tr1.
have [q' [r' [P' [u [B [W [[Eb2' Eo2 Es2 _ EW] _]]]]]]] := C55_modes Pr1 Px1 Tr1 Ls F2.
have [F [EF HF]] := C55_forecast k0 t Eo2 Es2.
exists d1, d2, d3, F; split; [split=> // j|split=> //].
  have HP a : P 1 a = 0.
    have [_ _ [Z ->]] := exact_span Ex1; by rewrite mxE big1 // => b _; rewrite mxE mul0r.
  have E : existT (fun k => 'M[C]_(2, k)) q P = existT (fun k => 'M[C]_(2, k)) q' P' by congruence.
  have HP' : forall a, projT2 (existT (fun k => 'M[C]_(2, k)) q' P') 1 a = 0 by rewrite -E.
  by rewrite HF; apply: big1=> l _; rewrite EW mxE big1 ?mul0r // => a _; rewrite HP' mul0r.
have [UU Un _] := exact_span Ex3.
have H0 : push x (bc_con (b_cfg d)) (0 : 'rV[C]_1) = Ok 0 by rewrite /= Ec.
have H1 (i : 'I_2) (j : 'I_m) : X2 i j = \sum_(l < 1) (const_mx 1 : 'cV[C]_2) i l * x_exp x (t 0 j * (0 : 'rV[C]_1) 0 l).
  by rewrite big_ord1 !mxE mulr0 E0 mulr1.
have H2 : exists G, G *m (\matrix_(j < m, l < 1) x_exp x (t 0 j * (0 : 'rV[C]_1) 0 l)) = 1%:M.
  exists (delta_mx 0 j0); apply/matrixP=> a b; rewrite !ord1 mxE (bigD1 j0) //= big1 ?addr0 => [|j Hj].
    by rewrite !mxE !eqxx mulr0 E0 mulr1.
  by rewrite !mxE (negbTE Hj) andbF mul0r.
have H3 (j l : 'I_1) : 10%:R * feps C * sqrtC (\sum_i `|(const_mx 1 : 'cV[C]_2) i l| ^+ 2) <= sqrtC (\sum_i `|(const_mx 1 : 'cV[C]_2) i j| ^+ 2).
  rewrite !ord1 ler_pimull ?sqrtC_ge0 ?sumr_ge0 // => [i _|]; first by rewrite exprn_ge0.
  rewrite /feps ler_pdivr_mulr ?exprn_gt0 ?ltr0n // mul1r -natrX ler_nat.
  have -> : (2 ^ 52 = 2 ^ 4 * 2 ^ 48)%N by rewrite -expnD.
  by rewrite (@leq_trans (2 ^ 4 * 1)%N) // leq_mul2l expn_gt0.
have H4 : P3 *m adj P3 *m (const_mx 1 : 'cV[C]_2) = const_mx 1.
  suff -> : (const_mx 1 : 'cV[C]_2) = X2 *m delta_mx j0 0 by exact: Un.
  apply/matrixP=> a b; rewrite !ord1 !mxE (bigD1 j0) //= big1 ?addr0 => [|j Hj]; first by rewrite !mxE !eqxx mulr1.
  by rewrite !mxE (negbTE Hj) mulr0.
have [F' EF' HF'] := @C55_exact fuel k0 2 d d3 m X2 t 1 0 (const_mx 1) q3 P3 Pr Px Tr No Ls erefl H0 H1 H2 H3 F3 Eb3 UU H4 m t.
by rewrite EF'; congr (Ok (Plain _)); apply/matrixP=> i j; rewrite HF' H1; apply: eq_bigr=> l _; rewrite mulrC (mulrC (t 0 j)) mulrC.
Qed.
End Main.

(** ** Concrete cases *)
Section Case.
Let K := algCnumClosedField.
Let np := ideal K.
Let x := ideal_ext (fun z : K => 1 + z).
Let opts : vopts K := VOpts 1 52 2%:R true 30 (10%:R ^+ 6)^-1 (10%:R ^+ 12)^-1 true.
Let con : constr K := ConSet K (CSet false false false false).
Let cfg : bop_cfg K := BopCfg false true 0 (TInt (Zpos (xO xH))) EsAuto con None false 200%N%:Z (Some opts).

Lemma ideal_int_rank : int_rank_ok np.
Proof.
move=> k s n m [|z] // _; rewrite /np /= /ideal_rank /= Pnat.SuccNat2Pos.id_succ inordK //.
by rewrite ltnS geq_minr.
Qed.
Example C17_case : exists d1 d2 d3 F2,
  let d : bop K 2 := Bop cfg (Model_Utils.RInt (Zpos xH)) None (Some (existT _ 1%N (0 : 'rV[K]_1))) None None None in
  let X1 : 'M[K]_(2, 3) := \matrix_(i, j) (i == 0)%:R in let t : 'rV[K]_3 := \row_j (nat_of_ord j)%:R in
    [/\ bop_fit np x 0 d X1 true t = Some (d1, Ok tt), bop_fit np x 0 d1 (const_mx 1 : 'M_(2, 3)) true t = Some (d2, Ok tt),
        forecast x 0 d2 true t = Ok (Plain F2) & forall j, F2 1 j = 0] /\
    bop_fit np x 0 d (const_mx 1 : 'M_(2, 3)) true t = Some (d3, Ok tt) /\ forecast x 0 d3 true t = Ok (Plain (const_mx 1)).
Proof.
have [Sv [_ [Ls [_ [_ [_ [No _]]]]]]] := ideal_contracts K.
by apply: (@C17_bopdmd_refuted K np x cfg opts) => //; [rewrite /= addr0|exact: ideal_int_rank].
Qed.

(** the economic fit of a 2 x 2 system equals the fit *)
Example C54_case : let d : bop K 2 := Bop cfg (Model_Utils.RInt (Zpos (xO xH))) (Some (existT _ 2%N (1%:M : 'M[K]_2))) (Some (existT _ 2%N (const_mx 'i : 'rV[K]_2))) None None None in
  bop_fit_econ np x 0 d (const_mx 3%:R : 'rV[K]_2) (1%:M : 'M[K]_2) true (const_mx 1 : 'rV[K]_2) =
  omap (fun z => (forget_snap z.1, z.2)) (bop_fit np x 0 d (1%:M *m diag_mx (const_mx 3%:R) *m 1%:M) true (const_mx 1 : 'rV[K]_2)).
Proof.
move=> d; apply: C54_same=> //; first by rewrite adj1 mul1mx.
move: (np_svd _ _).1.2 => s; have := @ideal_int_rank _ s 2%N 2%N 2%N isT.
by rewrite -[b_rank d]/(Model_Utils.RInt (Z.of_nat 2)) => ->.
Qed.

(** bagging after fit_econ: the fit succeeds, the forecast does not *)
Let bags : bop_cfg K := BopCfg true true 2%N%:Z (TInt (Zpos (xO xH))) EsAuto con None false 200%N%:Z (Some opts).
Lemma bags_run (H : 'M[K]_(2, data_cols bags 2 2)) (t : 'rV[K]_2) (al : 'rV[K]_2) :
  exists u, @compute_operator K np x 2 bags opts 2 2 1%:M 2 H t 2 al = Some (Ok u).
Proof.
have St M' (H' : 'M[K]_(M', data_cols bags 2 2)) t' (a : 'rV[K]_2) e : single_trial np x opts (1%:M : 'M_2) H' t' a <> Err e.
  rewrite /single_trial; case E : (variable_projection _ _ _ _ _ _ _ _)=> [v|er] /=.
    by [].
  by have [_ [s [<-]]] := C41_errors E.
case E : (compute_operator _ _ _ _ _ _ _ _)=> [[u|e]|]; first by exists u.
  have [//|/St //|[t0 [out [k [_ _ _ _ D]]]]] := C42_raises _ E.
  case: D=> [|[_] //|[_] //|[mf [a [_ Em _ _ /(_ a)]]]].
    rewrite /bag_trial; case Eb : (bag _ _ _ _)=> [l|e1] //=; first by move/St.
  by rewrite leqnn -[X in (X < _)%N]addn0 ltn_add2l /kept orbT; case: mf Em=> // mf _; move/(_ isT).
by have := @C42_ends_keeping K np x bags opts 2 2 1%:M 2 H t 2 al 2 erefl erefl; rewrite E.
Qed.
Example C54_case_bagged : let d : bop K 2 := Bop bags (Model_Utils.RInt (Zpos (xO xH))) (Some (existT _ 2%N (1%:M : 'M[K]_2))) (Some (existT _ 2%N (const_mx 'i : 'rV[K]_2))) None None None in
  exists d', bop_fit_econ np x 2 d (const_mx 3%:R : 'rV[K]_2) (1%:M : 'M[K]_2) true (const_mx 1 : 'rV[K]_2) = Some (d', Ok tt) /\
    forecast x 0 d' true (const_mx 1 : 'rV[K]_2) = Err AttributeError.
Proof.
move=> d; have [d' E] : exists d', bop_fit_econ np x 2 d (const_mx 3%:R : 'rV[K]_2) (1%:M : 'M[K]_2) true (const_mx 1 : 'rV[K]_2) = Some (d', Ok tt).
  rewrite /bop_fit_econ /=; case: {-}_ / idP=> // Pr; case: (@eqP _ 2%N 2%N)=> // e.
  rewrite /econ_from /get_alpha /= /run_operator /=; set H := castmx _ _^T.
  by have [u ->] := bags_run H (castmx (erefl, e) (const_mx 1)) (const_mx 'i); eexists.
by exists d'; split=> //; exact: (C54_bagged_forecast_refuted 0 _ _ E).
Qed.

(** exact data: a constant system, at times beyond the data *)
Example C55_case : exists d' (F : 'M[K]_(2, 5)),
  let d : bop K 2 := Bop cfg (Model_Utils.RInt (Zpos xH)) None (Some (existT _ 1%N (0 : 'rV[K]_1))) None None None in
  bop_fit np x 0 d (const_mx 1 : 'M_(2, 3)) true (\row_(j < 3) (nat_of_ord j)%:R) = Some (d', Ok tt) /\
  exists q r (u : bop_op K 2 q r), [/\ b_op d' = Some (Some (existT _ q (existT _ r u))), bo_std u = None,
    forecast x 0 d' true (\row_(j < 5) (nat_of_ord j)%:R) = Ok (Plain F) &
    forall i j, F i j = \sum_(l < r) bo_modes u i l * bo_b u 0 l * (1 + bo_eigs u 0 l * (nat_of_ord j)%:R)].
Proof.
have [? [? [d3 [? [_ [E3 _]]]]]] := C17_case.
have [_ [_ [Ls _]]] := ideal_contracts K.
have [q [r [P [u [B [W [[_ Eo Es _ _] _]]]]]]] := C55_modes (isT : bc_proj (b_cfg (Bop cfg (Model_Utils.RInt (Zpos xH)) None (Some (existT (fun k => 'rV[K]_k) 1%N (0 : 'rV[K]_1))) None None None : bop K 2))) erefl (lexx _) Ls E3.
have [F [EF HF]] := C55_forecast x 0 (\row_(j < 5) (nat_of_ord j)%:R) Eo Es.
by exists d3, F; split=> //; exists q, r, u; split=> // i j; rewrite HF; apply: eq_bigr=> l _; rewrite !mxE.
Qed.
End Case.

Print Assumptions C55_modes.
Print Assumptions C55_forecast.
Print Assumptions C55_forecast_errors.
Print Assumptions C55_spread.
Print Assumptions C55_exact.
Print Assumptions C54_same.
Print Assumptions C54_errors.
Print Assumptions C54_refuses.
Print Assumptions C54_bagged_forecast_refuted.
Print Assumptions C17_bopdmd_keeps_basis.
Print Assumptions C17_bopdmd_keeps_rank.
Print Assumptions C17_bopdmd_refuted.
