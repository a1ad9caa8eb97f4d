(** * C37, C38: HAVOK fit *)
From Coq Require Import Lia.
From mathcomp Require Import all_ssreflect all_algebra all_field.
From Verif Require Import Py LinAlg Model_Operator Spec_Operator Model_HavokFit Proofs_HavokFit.
From Verif Require Examples_Operator.
From Verif Require Model_Havok Model_Utils Proofs_Havok Properties_Havok.
Set Implicit Arguments. Unset Strict Implicit. Unset Printing Implicit Defensive.
Import Order.TTheory GRing.Theory Num.Theory.
Local Open Scope ring_scope.

Section Spec.
Variable C : numClosedFieldType.
Implicit Type np : numpy C.

(** second-order finite differences of each column, real parts (the derivative is stored as floats) *)
Definition finite_differences (dt : C) m r (V Vd : 'M[C]_(m, r)) : Prop :=
  (3 <= m)%N /\ forall (i : 'I_m) j,
  [/\ (forall a b : 'I_m, a.+1 = i :> nat -> b = i.+1 :> nat -> Vd i j = 'Re ((V b j - V a j) / (2%:R * dt))),
      (forall a b c : 'I_m, i = 0%N :> nat -> a = 0%N :> nat -> b = 1%N :> nat -> c = 2%N :> nat ->
         Vd i j = 'Re ((- 3%:R * V a j + 4%:R * V b j - V c j) / (2%:R * dt))) &
      (forall a b c : 'I_m, a = i -> b.+1 = a :> nat -> c.+1 = b :> nat -> i.+1 = m ->
         Vd i j = 'Re ((3%:R * V a j - 4%:R * V b j + V c j) / (2%:R * dt)))].
(** the leading left singular vectors, singular values and right singular vectors (by columns) of a matrix *)
Definition leading_left np n m (M : 'M[C]_(n, m)) n' r (U : 'M[C]_(n', r)) (s : 'rV[C]_r) : Prop :=
  [/\ n' = n, (r <= minn n m)%N &
   forall (i : 'I_n') (i' : 'I_n) (j : 'I_r) (k : 'I_(minn n m)), i = i' :> nat -> j = k :> nat ->
     U i j = (np_svd np M).1.1 i' k /\ s 0 j = (np_svd np M).1.2 0 k].
Definition leading_right np n m (M : 'M[C]_(n, m)) m' r (V : 'M[C]_(m', r)) : Prop :=
  [/\ m' = m, (r <= minn n m)%N &
   forall (i : 'I_m') (i' : 'I_m) (j : 'I_r) (k : 'I_(minn n m)), i = i' :> nat -> j = k :> nat ->
     V i j = ((np_svd np M).2 k i')^*].

(** the matrix whose decomposition gives the embeddings *)
Definition decomposed_ok np (cfg : hv_cfg C) (f : hv_fit C) : Prop :=
  if h_structured cfg then svd_ok np (col' ord_max (mx_of (hf_ho f))) else svd_ok np (mx_of (hf_ho f)).
Definition operator_calls_ok np (cfg : hv_cfg C) m r (V Vd : 'M[C]_(m, r)) : Prop :=
  match h_dmd cfg with
  | None => if h_lstsq cfg then forall j, lstsq_ok np V (col j Vd) else pinv_ok np V
  | Some d => forall d' f, fit_xy np d V^T Vd^T = (d', Ok f) -> dmd_calls_ok np d d' V^T Vd^T f
  end.
(** the columns governed by the linear dynamics *)
Definition head_cols m r (c : nat) (V : 'M[C]_(m, r)) : 'M[C]_(m, r - c) := \matrix_(i, j) V i (head_ord j).
End Spec.

Section Lemmas.
Variable C : numClosedFieldType.
Implicit Type np : numpy C.
Lemma sum_split (a c r : nat) (e : r = (a + c)%N) (F : 'I_r -> C) (h : 'I_a -> 'I_r) (t : 'I_c -> 'I_r) :
  (forall i, h i = i :> nat) -> (forall i, t i = (a + i)%N :> nat) ->
  \sum_k F k = \sum_k F (h k) + \sum_k F (t k).
Proof.
subst r => Hh Ht; rewrite big_split_ord; congr (_ + _); apply: eq_bigr=> k _; congr F; apply/val_inj => /=.
  by rewrite Hh.
by rewrite Ht.
Qed.
Lemma split_mul (f : hv_fit C) c (Hc : (c <= hf_r f)%N) p (Z : 'M[C]_(hf_r f, p)) :
  hf_V f *m Z = hv_linear c f *m (\matrix_(i, j) Z (head_ord i) j) + hv_forcing Hc *m (\matrix_(i, j) Z (tail_ord Hc i) j).
Proof.
apply/matrixP=> i j; rewrite !mxE (@sum_split (hf_r f - c) c (hf_r f) _ _ (@head_ord _ c) (tail_ord Hc)) ?subnK //.
by congr (_ + _); apply: eq_bigr=> k _; rewrite !mxE.
Qed.
Definition glue r c (Hc : (c <= r)%N) p (Z1 : 'M[C]_(r - c, p)) (Z2 : 'M[C]_(c, p)) : 'M[C]_(r, p) :=
  castmx (subnK Hc, erefl p) (col_mx Z1 Z2).
Lemma glue_head r c (Hc : (c <= r)%N) p (Z1 : 'M[C]_(r - c, p)) (Z2 : 'M[C]_(c, p)) : 
  (\matrix_(i, j) glue Hc Z1 Z2 (head_ord i) j) = Z1.
Proof.
apply/matrixP=> i j; rewrite !mxE castmxE /= cast_ord_id.
rewrite (_ : cast_ord _ _ = lshift c i); last exact/val_inj.
by rewrite col_mxEu.
Qed.
Lemma glue_tail r c (Hc : (c <= r)%N) p (Z1 : 'M[C]_(r - c, p)) (Z2 : 'M[C]_(c, p)) : 
  (\matrix_(i, j) glue Hc Z1 Z2 (tail_ord Hc i) j) = Z2.
Proof.
apply/matrixP=> i j; rewrite !mxE castmxE /= cast_ord_id.
rewrite (_ : cast_ord _ _ = rshift (r - c) i); last exact/val_inj.
by rewrite col_mxEd.
Qed.
Lemma diff_rows_spec dt m r (V Vd : 'M[C]_(m, r)) : diff_rows dt V = Ok Vd -> finite_differences dt V Vd.
Proof.
have AT (a : 'I_m) j : at_row V a j = V a j.
  by rewrite /at_row insubT //= => H; congr (V _ j); apply/val_inj.
rewrite /diff_rows; case: leqP=> // Hm [<-]; split=> // i j; split.
- move=> a b Ha Hb; rewrite mxE /real_part.
  have -> : (i == 0 :> nat)%N = false by rewrite -Ha.
  have -> : (i == m.-1 :> nat)%N = false by apply/negbTE/eqP=> E; have := ltn_ord b; rewrite Hb E prednK ?ltnn //; exact: leq_trans Hm.
  by rewrite -Hb AT -{1}Ha /= AT.
- by move=> a b c Hi Ha Hb Hc; rewrite mxE /real_part Hi eqxx -(AT a) -(AT b) -(AT c) Ha Hb Hc.
- move=> a b c -> Hb Hc Hi; rewrite mxE /real_part.
  have Ei : i = m.-1 :> nat by have := congr1 predn Hi.
  have -> : (i == 0 :> nat)%N = false by rewrite -Hb.
  have E1 : (m - 1)%N = i by rewrite subn1 -Ei.
  have E2 : (m - 2)%N = b by rewrite -[2%N]/(1 + 1)%N subnDA E1 -Hb subn1.
  have E3 : (m - 3)%N = c by rewrite -[3%N]/(2 + 1)%N subnDA E2 -Hc subn1.
  rewrite -Ei eqxx E1 E2 E3.
  by rewrite !AT.
Qed.
Lemma take_at n k (M : 'M[C]_(n, k)) (r : 'I_k.+1) i (j : 'I_r) (l : 'I_k) : j = l :> nat -> take_cols M r i j = M i l.
Proof. by move=> E; rewrite mxE; congr (M i _); apply/val_inj. Qed.
Lemma leading_svd np n m (M : 'M[C]_(n, m)) rk : 
  leading_left np M (sv_U (compute_svd np M rk)) (sv_s (compute_svd np M rk)) /\ leading_right np M (sv_V (compute_svd np M rk)).
Proof.
rewrite /leading_left /leading_right /compute_svd /svd_trunc; case: (np_svd np M) => [[U s] Vh] /=; split; split=> //.
- by rewrite -ltnS.
- by move=> i i' j k /val_inj <- E; rewrite !(take_at _ _ E).
- by rewrite -ltnS.
- by move=> i i' j k /val_inj <- E; rewrite (take_at _ _ E) adjE.
Qed.
Lemma embed_std_dot np dt rk n m (H : 'M[C]_(n, m)) E : E = embed_std np dt rk H ->
  [/\ leading_left np H (e_U E) (e_s E), leading_right np H (e_V E) & forall Vd, e_dot E = Ok Vd -> finite_differences dt (e_V E) Vd].
Proof. by move=> ->; have [H1 H2] := leading_svd np H rk; split=> //= Vd; exact: diff_rows_spec. Qed.
Lemma embed_structured_dot np dt rk n m (H : 'M[C]_(n, m.+1)) E : E = embed_structured np dt rk H ->
  [/\ leading_left np (col' ord_max H) (e_U E) (e_s E), leading_right np (col' ord_max H) (e_V E) &
      forall Vd, e_dot E = Ok Vd -> exists V2, Vd = dt^-1 *: (V2 - e_V E) /\ leading_right np (col' ord0 H) V2].
Proof.
move=> ->; have [H1 H2] := leading_svd np (col' ord_max H) rk; split=> //= Vd.
case: eqP=> // e [<-]; eexists; split; first by [].
have [_ ] := leading_svd np (col' ord0 H) (Model_Utils.RInt (BinInt.Z.of_nat (sv_r (compute_svd np (col' ord_max H) rk)))).
move: (sv_V _) => V; move: e V; move: (sv_r (compute_svd np (col' ord0 H) _)) => a e; case: _ / e => V.
by rewrite castmx_id.
Qed.
Lemma embed_V_orth np cfg dt n m (H : 'M[C]_(n, m.+1)) :
  (if h_structured cfg then svd_ok np (col' ord_max H) else svd_ok np H) ->
  adj (e_V (embed np cfg dt H)) *m e_V (embed np cfg dt H) = 1%:M /\
  adj (e_U (embed np cfg dt H)) *m e_U (embed np cfg dt H) = 1%:M.
Proof.
by rewrite /embed; case: ifP=> _ Hs; split; [exact: svd_V_orth | exact: svd_U_orth | exact: svd_V_orth | exact: svd_U_orth].
Qed.
Lemma operator_formula np cfg m r (V Vd : 'M[C]_(m, r)) K : adj V *m V = 1%:M -> operator_calls_ok np cfg V Vd ->
  havok_operator np cfg V Vd = Ok K -> K^T = adj V *m Vd.
Proof.
move=> HV; rewrite /operator_calls_ok /havok_operator; case: (h_dmd cfg)=> [d|]; last first.
  case: ifP=> _ H [<-]; rewrite trmxK; first exact/lstsq_orth/lstsq_mx_ok.
  by rewrite (pinv_orth HV H).
move=> H; case EF: (fit_xy _ _ _ _)=> [d' [f|]] //= [<-].
rewrite (dmd_operator EF (H _ _ EF)).
  by rewrite trmx_mul trmxK /adj !map_trmx trmxK.
have := congr1 trmx HV; rewrite trmx_mul trmx1 => <-; congr (_ *m _).
by apply/matrixP=> i j; rewrite !mxE.
Qed.
Lemma best_relation (f : hv_fit C) c (Hc : (c <= hf_r f)%N) (Vd : 'M[C]_(hf_m f, hf_r f)) A' B' :
  adj (hf_V f) *m hf_V f = 1%:M -> (hf_op f)^T = adj (hf_V f) *m Vd ->
  frob2 (head_cols c Vd - (hv_linear c f *m (hv_A c f)^T + hv_forcing Hc *m (hv_B Hc)^T))
  <= frob2 (head_cols c Vd - (hv_linear c f *m A'^T + hv_forcing Hc *m B'^T)).
Proof.
move=> HO F.
have E1 : hv_linear c f *m (hv_A c f)^T + hv_forcing Hc *m (hv_B Hc)^T = hf_V f *m head_cols c (hf_op f)^T.
  rewrite (split_mul Hc); congr (_ + _); congr (_ *m _); by apply/matrixP=> i j; rewrite !mxE.
have E2 : hv_linear c f *m A'^T + hv_forcing Hc *m B'^T = hf_V f *m glue Hc A'^T B'^T.
  by rewrite (split_mul Hc) glue_head glue_tail.
rewrite E1 E2; apply: lstsq_optimal; rewrite /is_lstsq HO mul1mx.
apply/matrixP=> i j; rewrite mxE.
have := congr1 (fun Z : 'M_(_, _) => Z i (head_ord j)) F; rewrite /= => ->; rewrite !mxE.
by apply: eq_bigr=> k _; rewrite [head_cols _ _ _ _]mxE.
Qed.
End Lemmas.

(** The fitted model: orthonormal embeddings V, their derivative Vd, and the operator V^h Vd whichever of lstsq, pinv or a
    (non-truncating) DMD computes it; A and B are the best linear relation between the derivative of the linear
    coordinates and (linear coordinates, forcing). *)
Theorem C38_fit (C : numClosedFieldType) (np : numpy C) cfg st st' X t f :
  hv_fit_step np cfg st X t = (st', Ok tt) -> hs_fit st' = Some f -> decomposed_ok np cfg f ->
  hs_r st' = Some (hf_r f) /\ (h_nc cfg < hf_r f)%N /\
  adj (hf_V f) *m hf_V f = 1%:M /\
  exists dt Vd, dt_of (hf_time f) = Ok dt /\
    (if h_structured cfg then
       [/\ leading_left np (col' ord_max (mx_of (hf_ho f))) (hf_U f) (hf_s f), leading_right np (col' ord_max (mx_of (hf_ho f))) (hf_V f) &
           exists V2, Vd = dt^-1 *: (V2 - hf_V f) /\ leading_right np (col' ord0 (mx_of (hf_ho f))) V2]
     else [/\ leading_left np (mx_of (hf_ho f)) (hf_U f) (hf_s f), leading_right np (mx_of (hf_ho f)) (hf_V f) &
           finite_differences dt (hf_V f) Vd]) /\
    (operator_calls_ok np cfg (hf_V f) Vd ->
     (hf_op f)^T = adj (hf_V f) *m Vd /\
     forall (Hc : (h_nc cfg <= hf_r f)%N) A' B',
     frob2 (head_cols (h_nc cfg) Vd - (hv_linear (h_nc cfg) f *m (hv_A (h_nc cfg) f)^T + hv_forcing Hc *m (hv_B Hc)^T))
     <= frob2 (head_cols (h_nc cfg) Vd - (hv_linear (h_nc cfg) f *m A'^T + hv_forcing Hc *m B'^T))).
Proof.
case/fit_step_inv=> H [time [dt [Vd [K [_ HH [HT HD HV] [Hr HK] ->]]]]] /= [Ef] Hs.
have [HO HU] : adj (e_V (embed np cfg dt (mx_of H))) *m e_V (embed np cfg dt (mx_of H)) = 1%:M /\
          adj (e_U (embed np cfg dt (mx_of H))) *m e_U (embed np cfg dt (mx_of H)) = 1%:M.
  by apply: embed_V_orth; move: Hs; rewrite /decomposed_ok -Ef.
clear Hs; subst f => /=.
do 3!split=> //; exists dt, Vd; split=> //; split.
  case ES: (h_structured cfg).
    have [H1 H2 H3] := @embed_structured_dot C np dt (h_rank cfg) _ _ (mx_of H) (embed np cfg dt (mx_of H)) ltac:(by rewrite /embed ES).
    by split=> //; exact: H3.
  have [H1 H2 H3] := @embed_std_dot C np dt (h_rank cfg) _ _ (mx_of H) (embed np cfg dt (mx_of H)) ltac:(by rewrite /embed ES).
  by split=> //; exact: H3.
move=> HC; have F := operator_formula HO HC HK; split=> // Hc A' B'.
exact: (@best_relation C (HvFit X H time (e_U _) (e_s _) (e_V _) K)).
Qed.
Print Assumptions C38_fit.

(** A fit that fails leaves every stored array as it was ... *)
Theorem C38_failed_fit (C : numClosedFieldType) (np : numpy C) cfg st st' X t e :
  hv_fit_step np cfg st X t = (st', Err e) -> hs_fit st' = hs_fit st.
Proof.
rewrite /hv_fit_step; case: ifP=> _; first by case=> <-.
case: (Model_Havok.hankel _ _ _ _) => [H|?]; last by case=> <-.
case: (time_of _ _) => [time|?]; last by case=> <-.
case: (dt_of _) => [dt|?]; last by case=> <-.
case: (e_dot _) => [Vd|?]; last by case=> <-.
case: leqP=> _; last by case=> <-.
by case: (havok_operator _ _ _ _) => [K|?] //; case=> <-.
Qed.
Print Assumptions C38_failed_fit.

(** invalid parameters are refused whatever the data *)
Theorem C38_parameters (C : numClosedFieldType) (np : numpy C) cfg st X t :
  h_delays cfg = 0%N \/ h_lag cfg = 0%N \/ h_nc cfg = 0%N -> hv_fit_step np cfg st X t = (st, Err ValueError).
Proof. by rewrite /hv_fit_step; case=> [->|[->|->]]; rewrite ?eqxx ?orbT. Qed.
Print Assumptions C38_parameters.

(** a vector of times must have one entry for each sample *)
Theorem C38_times (C : numClosedFieldType) (np : numpy C) cfg st st' X l :
  (size l <> hv_samples X -> exists e, hv_fit_step np cfg st X (TVec l) = (st, Err e)) /\
  (hv_fit_step np cfg st X (TVec l) = (st', Ok tt) -> exists f, hs_fit st' = Some f /\ hf_time f = l).
Proof.
rewrite /hv_fit_step; case: ifP=> _; first by split=> // _; eexists.
case: (Model_Havok.hankel _ _ _ _)=> [H|e]; last by split=> // _; eexists.
rewrite /time_of; case: eqP=> [E|N]; last by split=> // _; eexists.
split=> [|{E}]; first by rewrite E.
case: ifP=> // _; case: (dt_of l)=> [dt|e] //=; case: (e_dot (embed np cfg dt (mx_of H)))=> [Vd|e] //; case: ifP=> // _.
by case: (havok_operator _ _ _ _)=> [K|e] // [<-]; eexists.
Qed.
Print Assumptions C38_times.

(** linear dynamics and forcing are, side by side, the embeddings; A and B the rows of the operator for the linear part *)
Theorem C38_split (C : numClosedFieldType) (f : hv_fit C) c (Hc : (c <= hf_r f)%N) :
  castmx (erefl _, subnK Hc) (row_mx (hv_linear c f) (hv_forcing Hc)) = hf_V f /\
  forall (i : 'I_(hf_r f - c)) (i' : 'I_(hf_r f)), i = i' :> nat ->
    row i' (hf_op f) = castmx (erefl _, subnK Hc) (row i (row_mx (hv_A c f) (hv_B Hc))).
Proof.
split.
- apply/matrixP=> i j; rewrite castmxE /= cast_ord_id mxE.
  by case: splitP=> k /= E; rewrite mxE; congr (hf_V f i _); apply/val_inj; rewrite /= E.
- move=> i i' E; apply/rowP=> j; rewrite castmxE /= !mxE.
  have Ei : head_ord i = i' by apply/val_inj; rewrite /= E.
  by case: splitP=> k /= Ek; rewrite !mxE Ei; congr (hf_op f i' _); apply/val_inj; rewrite /= Ek.
Qed.
Print Assumptions C38_split.

(** the eigenvalues are those of A *)
Theorem C38_eigs (C : numClosedFieldType) (np : numpy C) (f : hv_fit C) c : eig_ok np (hv_A c f) ->
  forall j, exists v : 'cV[C]_(hf_r f - c), v != 0 /\ hv_A c f *m v = hv_eigs np c f 0 j *: v.
Proof.
case=> HW HN j; exists (col j (np_eig np (hv_A c f)).2); split.
- apply/eqP=> Z; have := HN j; rewrite big1 ?(eq_sym 0) => [/eqP|i _]; first by rewrite eq_sym oner_eq0.
  by have := congr1 (fun v : 'cV_ _ => v i 0) Z; rewrite !mxE => ->; rewrite normr0 expr0n.
- apply/colP=> i; have := congr1 (fun M : 'M_ _ => M i j) HW; rewrite mul_mx_diag !mxE => E.
  rewrite mulrC -E; apply: eq_bigr=> k _; by rewrite !mxE.
Qed.
Print Assumptions C38_eigs.

(** ** From embeddings back to data *)
Section Back.
Variable C : numClosedFieldType.
Lemma mat_of_at n m (M : 'M[C]_(n, m)) (i : 'I_n) (j : 'I_m) : Model_Havok.m_at (mat_of M) i j = Some (M i j).
Proof. by rewrite /= !valK. Qed.

(** the matrix of rank at most w that the first w coordinates define *)
Lemma rank_H_at n r m w (U : 'M[C]_(n, r)) s (E : 'M[C]_(m, w)) (Hw : (w <= r)%N) i j :
  rank_H U s E Hw i j = \sum_k U i (widen_ord Hw k) * s 0 (widen_ord Hw k) * (E j k)^*.
Proof. by rewrite /rank_H mxE; apply: eq_bigr=> k _; rewrite mul_mx_diag adjE !mxE. Qed.
End Back.

(** the stored decomposition reproduces the Hankel matrix *)
Definition nothing_truncated (C : numClosedFieldType) (f : hv_fit C) : Prop :=
  forall (i : 'I_(hf_n f)) (j : 'I_(hf_m f)),
  Model_Havok.m_at (hf_ho f) i j = Some (\sum_k hf_U f i k * hf_s f 0 k * (hf_V f j k)^*).

Lemma fit_sizes (C : numClosedFieldType) (np : numpy C) cfg st st' n m (x : nat -> nat -> C) t f :
  hv_fit_step np cfg st (Model_Havok.HV2 n m x) t = (st', Ok tt) -> hs_fit st' = Some f ->
  [/\ [/\ (0 < h_delays cfg)%N, (0 < h_lag cfg)%N & (h_lag cfg * (h_delays cfg - 1) + 1 <= m)%coq_nat],
      Model_Havok.hankel (@real_part C) (h_delays cfg) (h_lag cfg) (Model_Havok.HV2 n m x) = Ok (hf_ho f),
      hf_n f = Model_Havok.m_rows (hf_ho f), Model_Havok.m_cols (hf_ho f) = (m - (h_delays cfg - 1) * h_lag cfg)%N &
      (hf_m f + h_structured cfg = m - (h_delays cfg - 1) * h_lag cfg)%N].
Proof.
case/fit_step_inv=> H [time [dt [Vd [K [[H1 H2 _] HH _ _ ->]]]]] [<-]; rewrite [hf_n _]/= [hf_ho _]/= [hf_m _]/=.
have Hm : (h_lag cfg * (h_delays cfg - 1) + 1 <= m)%coq_nat.
  apply: Decidable.not_not; first exact: PeanoNat.Nat.le_decidable.
  move=> N; have [_] := @Properties_Havok.C37_refusals C (@real_part C) (h_delays cfg) (h_lag cfg) (Model_Havok.HV2 n m x) ltac:(by apply/ssrnat.leP; rewrite lt0n).
  by case=> [|e]; [exact/Compare_dec.not_ge | rewrite HH].
have [H' [E [Hr [Hc _]]]] := @Properties_Havok.C37_hankel C (@real_part C) (h_delays cfg) (h_lag cfg) n m x ltac:(by apply/ssrnat.leP; rewrite lt0n) Hm.
move: (E); rewrite HH => -[E']; subst H'.
have Hp : (0 < Model_Havok.m_cols H)%N.
  by rewrite Hc; apply/ssrnat.ltP; move: Hm; rewrite -plusE -multE -minusE; lia.
split=> //; first by split=> //; rewrite lt0n.
rewrite -[RHS]Hc /embed; case: (h_structured cfg) => /=; first by rewrite addn1 prednK.
by rewrite addn0 prednK.
Qed.

(** All embeddings, nothing truncated, and real data: the original samples come back (standard HAVOK). *)
Theorem C37_embeddings_to_data (C : numClosedFieldType) (np : numpy C) cfg st st' n m (x : nat -> nat -> C) t f :
  hv_fit_step np cfg st (Model_Havok.HV2 n m x) t = (st', Ok tt) -> hs_fit st' = Some f -> h_structured cfg = false ->
  (forall i j, x i j \is Num.real) -> nothing_truncated f ->
  (h_lag cfg <= m - (h_delays cfg - 1) * h_lag cfg)%coq_nat \/ h_delays cfg = 1%N ->
  exists R, to_original cfg f (hf_V f) = Ok R /\
    Model_Havok.m_rows (Model_Havok.d_mat R) = n /\ Model_Havok.m_cols (Model_Havok.d_mat R) = m /\
    forall i j, (i < n)%N -> (j < m)%N -> Model_Havok.m_at (Model_Havok.d_mat R) i j = Some (x i j).
Proof.
move=> HF Hf Hs Hx Hu Hl; have [[Hd _ Hm] HH Hn Hc Hmf] := fit_sizes HF Hf.
have Hre i j : real_part (x i j) = x i j by exact/Creal_ReP.
have Hd' : (1 <= h_delays cfg)%coq_nat by apply/ssrnat.leP.
have [H [R [E [ER [Rr [Rc [Ra _]]]]]]] := @Properties_Havok.C37_round_trip C (@real_part C) _ _ n m x Hd' Hm Hre Hl.
move: E; rewrite HH => -[E]; subst H.
rewrite /to_original; case: eqP => [Hw|]; last by rewrite leqnn.
set M := mat_of _.
have P1 : PeanoNat.Nat.div (Model_Havok.m_rows (hf_ho f)) (h_delays cfg) = PeanoNat.Nat.div (Model_Havok.m_rows M) (h_delays cfg) by rewrite /= Hn.
have P2 : Model_Havok.m_cols (hf_ho f) = Model_Havok.m_cols M by rewrite /= Hc -Hmf Hs addn0.
have P3 r j : (r < Nat.mul (h_delays cfg) (PeanoNat.Nat.div (Model_Havok.m_rows (hf_ho f)) (h_delays cfg)))%coq_nat ->
    (j < Model_Havok.m_cols (hf_ho f))%coq_nat -> Model_Havok.m_at (hf_ho f) r j = Model_Havok.m_at M r j.
  move=> Hr Hj.
  have Hr' : (r < hf_n f)%N.
    rewrite Hn; apply/ssrnat.ltP; have := PeanoNat.Nat.mul_div_le (Model_Havok.m_rows (hf_ho f)) (h_delays cfg); lia.
  have Hj' : (j < hf_m f)%N.
    by apply/ssrnat.ltP; move: Hj; rewrite P2.
  rewrite (Hu (Ordinal Hr') (Ordinal Hj')) /M (mat_of_at _ (Ordinal Hr') (Ordinal Hj')) rank_H_at.
  congr Some; apply: eq_bigr=> k _; have -> // : widen_ord Hw k = k by apply/val_inj.
have [R1 [R2 [E1 [E2 [_ Eat]]]]] := @Properties_Havok.C37_spare_rows_refuted C (@real_part C) _ (h_lag cfg) _ _ Hd' P1 P2 P3.
exists R2; split=> //; rewrite ER in E1; case: E1 => E1; subst R1.
have Sz : Model_Havok.m_rows (Model_Havok.d_mat R2) = n /\ Model_Havok.m_cols (Model_Havok.d_mat R2) = m.
  have [R3 [E3 [S1 [S2 _]]]] := @Properties_Havok.C37_dehankel C (@real_part C) (h_delays cfg) (h_lag cfg) M Hd'.
  have [R4 [E4 [S3 [S4 _]]]] := @Properties_Havok.C37_dehankel C (@real_part C) (h_delays cfg) (h_lag cfg) (hf_ho f) Hd'.
  move: E3 E4; rewrite E2 ER => -[E3] [E4]; subst R3 R4.
  rewrite S1 S2 -Rr -Rc S3 S4 /= -Hn; split=> //; congr (_ + _)%N; by rewrite Hc -Hmf Hs addn0.
case: Sz => -> ->; do 2!split=> //; move=> i j Hi Hj.
rewrite -Eat; first by apply: Ra; exact/ssrnat.ltP.
by rewrite Rr; exact/ssrnat.ltP.
Qed.
Print Assumptions C37_embeddings_to_data.

(** Structured HAVOK reconstructs one sample fewer than it was given. *)
Theorem C37_structured_length_refuted (C : numClosedFieldType) (np : numpy C) cfg st st' n m (x : nat -> nat -> C) t f w (E : 'M[C]_(_, w)) R :
  hv_fit_step np cfg st (Model_Havok.HV2 n m x) t = (st', Ok tt) -> hs_fit st' = Some f ->
  @to_original C cfg f (hf_m f) w E = Ok R -> (Model_Havok.m_cols (Model_Havok.d_mat R) + h_structured cfg = m)%N.
Proof.
move=> HF Hf; have [[Hd _ Hm] _ _ _ Hmf] := fit_sizes HF Hf.
rewrite /to_original; case: eqP=> // Hw HR.
have [R' [E' [_ [Ec _]]]] := @Properties_Havok.C37_dehankel C (@real_part C) (h_delays cfg) (h_lag cfg) (mat_of (rank_H (hf_U f) (hf_s f) E Hw)) ltac:(exact/ssrnat.leP).
move: E'; rewrite HR => -[E']; subst R'; rewrite Ec /=.
move: Hmf Hm; rewrite -!plusE -!multE -!minusE; case: (h_structured cfg) => /=; lia.
Qed.
Print Assumptions C37_structured_length_refuted.

(** With a single linear coordinate (r = num_chaos + 1, the smallest rank fit accepts) prediction and reconstruction always fail. *)
Theorem C38_single_coordinate_refuted (C : numClosedFieldType) lsim (cfg : hv_cfg C) (f : hv_fit C) (Hc : (h_nc cfg <= hf_r f)%N) :
  hf_r f = (h_nc cfg).+1 -> 
  (forall R, hv_reconstructed lsim Hc <> Ok R) /\ forall m (u : 'M[C]_(m, h_nc cfg)) time v R, hv_predict lsim Hc u time v <> Ok R.
Proof.
move=> Hr; have W : (hf_r f - h_nc cfg == 1)%N by rewrite Hr subSnn.
have B m (u : 'M[C]_(m, h_nc cfg)) time x R : back cfg f (compute_embeddings lsim Hc u time x) <> Ok R.
  by rewrite /compute_embeddings /lsim_squeezed W andbT orbT; case: ifP.
split=> [R|m u time v R].
- by rewrite /hv_reconstructed; case: (col_index _ _) => // i; exact: B.
- by case: v => [z|x] /=; last exact: B; case: (col_index _ _) => // i; exact: B.
Qed.
Print Assumptions C38_single_coordinate_refuted.

(** Otherwise the reconstruction is the simulated linear part, mapped back with the leading singular vectors. *)
Theorem C38_reconstruction (C : numClosedFieldType) lsim (cfg : hv_cfg C) (f : hv_fit C) (Hc : (h_nc cfg <= hf_r f)%N) (i0 : 'I_(hf_m f)) :
  (1 < hf_m f)%N -> (1 < hf_r f - h_nc cfg)%N -> i0 = 0%N :> nat ->
  hv_reconstructed lsim Hc = to_original cfg f (lsim _ _ _ (hv_A (h_nc cfg) f) (hv_B Hc) 1%:M 0
      (hv_forcing Hc) (take (hf_m f) (hf_time f)) (row i0 (hv_linear (h_nc cfg) f))).
Proof.
move=> Hm Hw H0; rewrite /hv_reconstructed /=.
have -> : insub 0%N = Some i0 :> option 'I_(hf_m f).
  by rewrite insubT ?(leq_trans _ Hm) // => H; congr Some; apply/val_inj; rewrite /= H0.
by rewrite /compute_embeddings /lsim_squeezed scale0r /= !(gtn_eqF _) //= ; case: eqP Hm => // ->.
Qed.
Print Assumptions C38_reconstruction.

(** predict starts from the given state, or from the embedding at a Python index (negative ones count from the end) *)
Theorem C38_predict (C : numClosedFieldType)
    (lsim : forall p q m, 'M[C]_p -> 'M[C]_(p, q) -> 'M[C]_p -> 'M[C]_(p, q) -> 'M[C]_(m, q) -> seq C -> 'rV[C]_p -> 'M[C]_(m, p))
    (cfg : hv_cfg C) (f : hv_fit C) (Hc : (h_nc cfg <= hf_r f)%N) m
    (u : 'M[C]_(m, h_nc cfg)) time : (1 < m)%N -> (1 < hf_r f - h_nc cfg)%N ->
  let run x := to_original cfg f (lsim _ _ _ (hv_A (h_nc cfg) f) (hv_B Hc) 1%:M 0 u time x) in
  [/\ forall x, hv_predict lsim Hc u time (V0State x) = run x,
      forall (z : int) (i : 'I_(hf_m f)), z = i%:Z \/ z = i%:Z - (hf_m f)%:Z ->
        hv_predict lsim Hc u time (V0Index _ _ z) = run (row i (hv_linear (h_nc cfg) f)) &
      forall z : int, (hf_m f)%:Z <= z \/ z < - (hf_m f)%:Z -> hv_predict lsim Hc u time (V0Index _ _ z) = Err IndexError].
Proof.
move=> Hm Hw run.
have R x : back cfg f (compute_embeddings lsim Hc u time x) = run x.
  by rewrite /compute_embeddings /lsim_squeezed scale0r !(gtn_eqF _).
split=> [x|z i Hz|z Hz]; first exact: R.
- rewrite /hv_predict; suff -> : col_index (hf_m f) z = Some i by exact: R.
  case: Hz => -> /=; first by rewrite valK.
  have E : i%:Z - (hf_m f)%:Z = Negz (hf_m f - i).-1.
    by rewrite NegzE prednK ?subn_gt0 // -opprB subzn // ltnW.
  by rewrite E /= prednK ?subn_gt0 // leq_subr subKn ?valK // ltnW.
rewrite /hv_predict; suff -> : col_index (hf_m f) z = None by [].
case: z Hz => a /= [|] H //.
- by rewrite insubF // ltnNge -lez_nat H.
- by move: H; rewrite -[X in _ < X]sub0r ltr_subr_addr -PoszD.
- by case: leqP=> // H'; move: H; rewrite NegzE ltr_opp2 ltz_nat ltnS leqNgt H'.
Qed.
Print Assumptions C38_predict.

(** ** A concrete model: samples 2, 1, 2, -2 with two delays; the rows of the Hankel matrix, (2,1,2) and (1,2,-2), are orthogonal
    and have norm 3 *)
Local Notation AC := algCnumClosedField.
Definition hv_np : numpy AC := {|
  np_svd := fun n m X => (\matrix_(i, j) (i == j :> nat)%:R, const_mx 3%:R,
                          \matrix_(i, j) (X (widen_ord (geq_minl n m) i) j / 3%:R));
  np_rank := fun k _ _ _ _ => ord_max;
  np_eig := fun r A => (0, 0); np_sqrtm := fun r M => M; np_norm := fun n m X => 0;
  np_lstsq := fun n r M y => adj M *m y; np_solve := fun r P q => q; np_pinv := fun n r M => adj M;
  np_power := fun x _ => x |}.
Definition hv_data (i j : nat) : algC := [:: 2%:R; 1; 2%:R; - 2%:R]`_j.
Definition hv_excfg (ls : bool) : hv_cfg AC := HvCfg (Model_Utils.RInt BinNums.Z0) 2 1 1 false ls None.
Definition hv_H : Model_Havok.mat AC := Model_Havok.hankel_loop (@real_part AC) 2 1 1 3 hv_data.
Lemma hv_data_real i j : hv_data i j \is Num.real.
Proof. by rewrite /hv_data; case: j => [|[|[|[|[|j]]]]] /=; rewrite ?rpredN ?realn ?rpred0 ?rpred1. Qed.
Lemma hv_H_at (i j : nat) : (i < 2)%N -> Model_Havok.m_at hv_H i j = Some (hv_data 0 (i + j)).
Proof.
have R a b : real_part (hv_data a b) = hv_data a b by exact/Creal_ReP/hv_data_real.
by case: i => [|[|i]] // _; rewrite /= ?R //; congr (Some (hv_data _ _)).
Qed.
Definition hv_M : 'M[algC]_(2, 3) := \matrix_(i, j) hv_data 0 (i + j).
Lemma hv_mx : mx_of hv_H = hv_M.
Proof. by apply/matrixP=> i j; rewrite !mxE hv_H_at. Qed.
Lemma hv_MM : hv_M *m adj hv_M = 9%:R%:M.
Proof.
have Z a b : hv_data a b = (nth 0 [:: 2; 1; 2; -2] b : int)%:~R by rewrite /hv_data; case: b => [|[|[|[|[|b]]]]].
apply/matrixP=> i j; rewrite !mxE !big_ord_recl big_ord0 !adjE !mxE !(CrealP (hv_data_real _ _)) addr0 !Z -!intrM -!intrD.
by move: i j; apply: Examples_Operator.ord2P; apply: Examples_Operator.ord2P.
Qed.
Lemma hv_svd : svd_ok hv_np hv_M.
Proof.
have N3 : 3%:R != 0 :> algC by rewrite pnatr_eq0.
have D : (\matrix_(i < 2, j < minn 2 3) (i == j :> nat)%:R) = 1%:M :> 'M[algC]_2 by apply/matrixP=> i j; rewrite !mxE.
have V : (\matrix_(i, j) (hv_M (widen_ord (geq_minl 2 3) i) j / 3%:R)) = 3%:R^-1 *: hv_M.
  by apply/matrixP=> i j; rewrite [LHS]mxE [RHS]mxE mulrC; congr (_ * hv_M _ _); apply/val_inj.
split=> /=; rewrite ?D ?V.
- rewrite mul1mx diag_const_mx mul_scalar_mx scalerA divff // scale1r //.
- by rewrite adj1 mulmx1.
- rewrite adjZ -scalemxAl -scalemxAr scalerA hv_MM fmorphV rmorph_nat scale_scalar_mx -invfM -natrM mulVf //.
  by rewrite pnatr_eq0.
- by move=> j; rewrite mxE ler0n.
- by move=> i j _; rewrite !mxE.
Qed.
Lemma lstsq_ex m r (V : 'M[algC]_(m, r)) y : adj V *m V = 1%:M -> lstsq_ok hv_np V y.
Proof. by move=> H; rewrite /lstsq_ok /is_lstsq H mul1mx. Qed.
Lemma full_svd n m (X : 'M[algC]_(n, m)) i j : svd_ok hv_np X ->
  X i j = \sum_k sv_U (svd_trunc hv_np X ord_max) i k * sv_s (svd_trunc hv_np X ord_max) 0 k * (sv_V (svd_trunc hv_np X ord_max) j k)^*.
Proof.
rewrite /svd_ok /svd_trunc; case: (np_svd hv_np X) => [[U s] Vh] /= [E _ _ _ _].
rewrite {1}E mxE; apply: eq_bigr=> k _; rewrite mul_mx_diag [in LHS]mxE !Examples_Operator.take_max adjE conjCK //.
Qed.
Definition hv_S := svd_trunc hv_np (mx_of hv_H) ord_max.
Definition hv_f (ls : bool) : hv_fit AC :=
  let D := match diff_rows (1%:R * 1 - 0%:R * 1) (sv_V hv_S) with Ok d => d | Err _ => 0 end in
  @HvFit AC (Model_Havok.HV2 1 4 hv_data) hv_H [seq j%:R * 1 | j <- iota 0 4] 2 3 2 (sv_U hv_S) (sv_s hv_S) (sv_V hv_S)
   ((if ls then lstsq_mx hv_np (sv_V hv_S) D else np_pinv hv_np (sv_V hv_S) *m D)^T).
Lemma hv_svdH : svd_ok hv_np (mx_of hv_H).
Proof. by rewrite hv_mx; exact: hv_svd. Qed.
Lemma hv_full ls : nothing_truncated (hv_f ls).
Proof.
rewrite /nothing_truncated; move=> i j; rewrite (_ : hf_ho (hv_f ls) = hv_H) // hv_H_at; last exact: ltn_ord.
transitivity (Some (mx_of hv_H i j)); first by rewrite hv_mx mxE.
congr Some; exact: (@full_svd 2 3 (mx_of hv_H) i j hv_svdH).
Qed.
Lemma hv_fits ls : hv_fit_step hv_np (hv_excfg ls) (HvState None None) (Model_Havok.HV2 1 4 hv_data) (TStep 1)
  = (HvState (Some 2%N) (Some (hv_f ls)), Ok tt).
Proof. by case: ls. Qed.
Example C38_case ls : exists st f, hv_fit_step hv_np (hv_excfg ls) (HvState None None) (Model_Havok.HV2 1 4 hv_data) (TStep 1) = (st, Ok tt)
  /\ hs_fit st = Some f /\ decomposed_ok hv_np (hv_excfg ls) f /\ hf_r f = 2%N /\
  (forall Vd, operator_calls_ok hv_np (hv_excfg ls) (hf_V f) Vd) /\ nothing_truncated f.
Proof.
eexists; exists (hv_f ls); split; first exact: hv_fits.
split; first by [].
split; first exact: hv_svdH.
split; first by [].
split; last exact: hv_full.
have O : adj (sv_V hv_S) *m sv_V hv_S = 1%:M by exact: (@svd_V_orth AC hv_np 2 3 (mx_of hv_H) (Model_Utils.RInt BinNums.Z0) hv_svdH).
case: ls => Vd; rewrite /operator_calls_ok /=; first by move=> j; exact: lstsq_ex.
rewrite /pinv_ok /=; split; rewrite ?O ?mulmx1 ?mul1mx ?adj1 //; first by rewrite -mulmxA O mulmx1.
by rewrite adjM adjK.
Qed.

(** a refit that fails (here: two samples only) leaves [r] of the new data beside the arrays of the old fit *)
Theorem C38_failed_fit_refuted : exists st st' f x,
  hv_fit_step hv_np (hv_excfg true) (HvState None None) (Model_Havok.HV2 1 4 hv_data) (TStep 1) = (st, Ok tt) /\
  hv_fit_step hv_np (hv_excfg true) st (Model_Havok.HV2 1 2 x) (TStep 1) = (st', Err IndexError) /\
  hs_fit st' = Some f /\ hs_r st' = Some 1%N /\ hf_r f = 2%N.
Proof. by exists (HvState (Some 2%N) (Some (hv_f true))), (HvState (Some 1%N) (Some (hv_f true))), (hv_f true), hv_data. Qed.
Print Assumptions C38_failed_fit_refuted.
