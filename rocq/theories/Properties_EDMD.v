(** * C39: EDMD *)
From Coq Require Import QArith.
From mathcomp Require Import all_ssreflect all_fingroup all_algebra all_field.
From Verif Require Import Py LinAlg Witness Model_Operator Spec_Operator Proofs_OpCore Proofs_Operator Proofs_Subspace Ideal Model_EDMD Spec_EDMD Proofs_EDMD.
From Verif Require Model_Utils Proofs_Utils.
Set Implicit Arguments. Unset Strict Implicit. Unset Printing Implicit Defensive.
Import Order.TTheory GRing.Theory Num.Theory.
Local Open Scope ring_scope.

(** ** Constructor and refusals *)
Theorem C39_constructor (C : numClosedFieldType) n rk tlsq opt kp ok :
  match edmd_init C n rk tlsq opt kp ok with
  | Ok d => [/\ ~ Qeq (Model_Utils.rank_val rk) (inject_Z Z0), kp <> NotDict & ok] /\
            (forall np kernel x, eigenfunctions np kernel d x = Err ValueError) /\ edmd_modes d = None
  | Err ValueError => Qeq (Model_Utils.rank_val rk) (inject_Z Z0) \/ (kp <> NotDict /\ ok = false)
  | Err TypeError => ~ Qeq (Model_Utils.rank_val rk) (inject_Z Z0) /\ kp = NotDict
  | Err _ => False
  end.
Proof.
rewrite /edmd_init; case E: (Qeq_bool _ _); first by left; exact: Qeq_bool_eq.
have N : ~ Qeq (Model_Utils.rank_val rk) (inject_Z Z0) by exact: Qeq_bool_neq.
by case: kp; case: ok=> //=; right.
Qed.

Section Main.
Variable C : numClosedFieldType.
Variable np : numpy C.
Variable n : nat.
Variable kernel : 'cV[C]_n -> 'cV[C]_n -> C.

(** Data that is not real is refused; the instance keeps the operator it had. *)
Theorem C39_complex m N (d : edmd C n) (S : 'M[C]_(n, N)) (X Y : 'M[C]_(n, m)) : ed_tlsq d = 0 ->
  ~~ (real_mx X && real_mx Y) ->
  let: (d', res) := edmd_fit_pair np kernel d S X Y in res = Err ValueError /\ ed_op_of d' = ed_op_of d.
Proof.
move=> Et H; rewrite /edmd_fit_pair /compute_tlsq Et eqxx /= /edmd_operator /pairwise_kernels.
by move: H; case: (real_mx X); case: (real_mx Y).
Qed.

(** Refuted: "eigenfunctions can be evaluated after fit".  After fit with one argument it never works. *)
Theorem C39_one_argument_refuted m (d d' : edmd C n) (S : 'M[C]_(n, m.+1)) x :
  edmd_fit np kernel d S = (d', Ok tt) -> eigenfunctions np kernel d' x = Err ValueError.
Proof.
rewrite /edmd_fit /edmd_fit_pair; case: (edmd_operator _ _ _ _ _)=> [o|e] //.
case: (edmd_amplitudes _ _ _ _ _)=> [b|e] // [] <-; rewrite /eigenfunctions /=; case: x=> // v.
rewrite /pairwise_kernels; case: ifP=> // _ /=.
by case: eqP=> // E; exfalso; move: E; elim: m {S o b}=> // m IH [].
Qed.

(** fit with one argument: the operator of the pairs of consecutive snapshots. *)
Theorem C39_one_argument m (d d1 d2 : edmd C n) (S : 'M[C]_(n, m.+1)) (X Y : 'M[C]_(n, m)) :
  (forall i (j : 'I_m), X i j = S i (inord j) /\ Y i j = S i (inord j.+1)) ->
  edmd_fit np kernel d S = (d1, Ok tt) -> edmd_fit_xy np kernel d X Y = (d2, Ok tt) ->
  edmd_eigs d1 = edmd_eigs d2 /\ edmd_modes d1 = edmd_modes d2.
Proof.
move=> H; rewrite /edmd_fit /edmd_fit_xy.
have -> : X = col' ord_max S.
  apply/matrixP=> i j; rewrite mxE; have [-> _] := H i j; congr (S i _).
  by apply: ord_inj; rewrite lift_max inordK // ltnS ltnW.
have -> : Y = col' ord0 S.
  by apply/matrixP=> i j; rewrite mxE; have [_ ->] := H i j; congr (S i _); apply: val_inj; rewrite /= inordK // ltnS.
rewrite /edmd_fit_pair; case: (edmd_operator _ _ _ _ _)=> [o|e] //.
case: (edmd_amplitudes _ _ _ _ _)=> [b|e] // [] <-.
by case: (edmd_amplitudes _ _ _ _ _)=> [b'|e] // [] <-.
Qed.

(** When fit succeeds *)
Lemma fit_ok m (d : edmd C n) (X Y : 'M[C]_(n, m.+1)) : ed_tlsq d = 0 -> ed_opt d = OptBool false ->
  real_mx X -> real_mx Y -> forall w W, np_eig np (kmat kernel X X) = (w, W) ->
  let f := feat w W (ed_rank d) in
  let Sp := np_pinv np (diag_mx (fs_s f)) in
  (np_eig np (Sp *m (fs_Q f)^T *m kmat kernel Y X *m fs_Q f *m Sp)).2 \in unitmx ->
  exists d', edmd_fit_xy np kernel d X Y = (d', Ok tt).
Proof.
move=> Et Eo RX RY w W EG f Sp HV; rewrite /edmd_fit_xy /edmd_fit_pair /compute_tlsq Et eqxx /= /edmd_operator /pairwise_kernels RX RY /= feature_svdE EG -/f -/Sp.
move: HV; case: (np_eig np (Sp *m (fs_Q f)^T *m kmat kernel Y X *m fs_Q f *m Sp))=> [w0 V0]; rewrite [_.2]/= => -> /=.
by rewrite /edmd_amplitudes Eo /= insubT /=; eexists.
Qed.

(** ** The fit *)
Section Fit.
Variables (m : nat) (d d' : edmd C n) (X Y : 'M[C]_(n, m)).
Hypothesis Et : ed_tlsq d = 0.
Hypothesis Ef : edmd_fit_xy np kernel d X Y = (d', Ok tt).
Let G := kmat kernel X X.
Let f := feat (np_eig np G).1 (np_eig np G).2 (ed_rank d).
Let Sp := np_pinv np (diag_mx (fs_s f)).
Let K := Sp *m (fs_Q f)^T *m kmat kernel Y X *m fs_Q f *m Sp.
Let w := (np_eig np K).1.
Let V := (np_eig np K).2.
Let M := X *m fs_Q f *m Sp *m (invmx V)^T.

Lemma fit_facts : exists b,
  [/\ real_mx X, real_mx Y, V \in unitmx &
  d' = Edmd (ed_rank d) (ed_tlsq d) (ed_opt d) (Some (existT _ m X))
    (Some (existT _ m (EdOp (fs_Q f) (fs_s f) V (mask_eigs [pred j | tiny C < `|w 0 j|] w) (mask_modes [pred j | tiny C < `|w 0 j|] M)))) b].
Proof.
move: Ef; rewrite /edmd_fit_xy /edmd_fit_pair /compute_tlsq Et eqxx /= /edmd_operator /pairwise_kernels.
case RX: (real_mx X)=> //=; case RY: (real_mx Y)=> //=; rewrite feature_svdE -/G -/f -/Sp -/K.
rewrite /M /w /V; case: (np_eig np K)=> [w0 V0] /=; case: ifP=> // HV /=.
by case: (edmd_amplitudes _ _ _ _ _)=> [b|e] // [] <-; eexists.
Qed.

(** Eigenvalues of modulus at most 1e-16 are dropped with their modes, the others stay paired and in order.
    The operator they come from and the eigenfunctions are not filtered. *)
Theorem C39_paired : exists r (w : 'rV[C]_r) (M : 'M[C]_(n, r)) (psi : 'cV[C]_n -> 'rV[C]_r) k (idx : 'I_k -> 'I_r),
  [/\ selects (fun l => tiny C < `|w 0 l|) idx,
      edmd_eigs d' = Some (existT _ k (\row_j w 0 (idx j))),
      edmd_modes d' = Some (existT _ k (\matrix_(i, j) M i (idx j))) &
      forall x, real_mx x -> eigenfunctions np kernel d' (Vec x) = Ok (existT _ r (psi x))].
Proof.
have [b [RX RY HV ->]] := fit_facts.
exists (fs_r f), w, M, (fun x => kmat kernel x X *m fs_Q f *m Sp *m V), _, (fun j : 'I_#|[pred j | tiny C < `|w 0 j|]| => enum_val j).
split=> //; first exact: mask_selects.
move=> x Rx; rewrite /eigenfunctions /= /pairwise_kernels Rx RX /=.
by case: eqP=> // E; rewrite (eq_axiomK E) castmx_id.
Qed.

(** Contracts of the calls *)
Hypothesis Eeig : forall r (A : 'M[C]_r), eig_ok np A.
Hypothesis Epinv : forall a b (A : 'M[C]_(a, b)), pinv_ok np A.

(** ** The singular values *)
Section Features.
Variables (p : nat) (phi : 'cV[C]_n -> 'cV[C]_p).
Hypothesis Hphi : feature_kernel kernel phi.
Hypothesis HG : eig_sym_ok np G.
Let Phi := (features phi X)^T.

Lemma PhiE a b (A : 'M[C]_(n, a)) (B : 'M[C]_(n, b)) : kmat kernel A B = (features phi A)^T *m features phi B.
Proof.
apply/matrixP=> i j; rewrite mxE; case: Hphi=> _ ->; rewrite !mxE; apply: eq_bigr=> l _; by rewrite !mxE.
Qed.
Lemma G_Phi : G = Phi *m Phi^T. Proof. by rewrite /G PhiE trmxK. Qed.
Lemma real_features a (A : 'M[C]_(n, a)) : real_mx A -> real_mx (features phi A).
Proof.
move=> /real_mxP RA; apply/real_mxP=> i j; rewrite mxE; case: Hphi=> Hr _.
have /Hr/real_mxP : real_mx (col j A) by apply/real_mxP=> a' b'; rewrite mxE.
exact.
Qed.
Lemma real_Phi : real_mx X -> real_mx Phi.
Proof. by move=> /real_features/real_mxP H; apply/real_mxP=> i j; rewrite mxE. Qed.

Lemma feat_all : real_mx X -> 
  [/\ forall j, 0 <= fs_s f 0 j, G *m fs_Q f = fs_Q f *m (diag_mx (fs_s f) *m diag_mx (fs_s f)), G^T = G,
      let D := diag_mx (\row_j (fs_s f 0 j != 0)%:R : 'rV[C]_(fs_r f)) in D *m ((fs_Q f)^T *m fs_Q f) *m D = D &
      (\rank G <= fs_r f)%N -> exists c, Phi = fs_Q f *m diag_mx (\row_j (fs_s f 0 j != 0)%:R : 'rV[C]_(fs_r f)) *m c].
Proof.
move=> /real_Phi RP; move: HG; rewrite /f G_Phi => HG'; split.
- exact: s_ge0.
- exact: feat_G1.
- by rewrite trmx_mul trmxK.
- exact: feat_G3.
- exact: feat_G4.
Qed.

(** svd_vals: non-negative, decreasing, their squares eigenvalues of the Gramian *)
Theorem C39_svd_vals : exists o, ed_op_of d' = Some (existT _ m o) /\
  [/\ forall j, 0 <= eo_s o 0 j, forall i j : 'I_(eo_r o), (i <= j)%N -> eo_s o 0 j <= eo_s o 0 i,
      kmat kernel X X *m eo_Q o = eo_Q o *m diag_mx (\row_j eo_s o 0 j ^+ 2), (eo_r o <= m)%N &
      (forall i j, i != j -> eo_s o 0 i != 0 -> ((eo_Q o)^T *m eo_Q o) i j = 0)].
Proof.
have [b [RX RY HV ->]] := fit_facts; eexists; split; first reflexivity.
have [Hs H1 _ H3 _] := feat_all RX; have RP := real_Phi RX.
have HD : forall i j : 'I_(fs_r f), (i <= j)%N -> fs_s f 0 j <= fs_s f 0 i.
  by move: HG; rewrite /f G_Phi => HG' i j; exact: feat_desc.
have HO : forall i j : 'I_(fs_r f), i != j -> fs_s f 0 i != 0 -> ((fs_Q f)^T *m fs_Q f) i j = 0.
  by move: HG; rewrite /f G_Phi => HG' i j; exact: feat_orth.
split; [exact: Hs|exact: HD| |by rewrite -ltnS; exact: ltn_ord|exact: HO].
rewrite -[eo_Q _]/(fs_Q f) -[eo_s _]/(fs_s f); move: H1; rewrite /G => ->.
by rewrite mulmx_diag.
Qed.

(** The rank: all for a negative int or a number at least 1, at most [m] for a positive int; for 0 < a/b < 1 the
    fewest singular values whose energy reaches that part of the total. *)
Theorem C39_rank : exists o, ed_op_of d' = Some (existT _ m o) /\
  match ed_rank d with
  | Model_Utils.RInt (Zpos a) => eo_r o = minn (BinPos.Pos.to_nat a) m
  | Model_Utils.RInt _ => eo_r o = m
  | Model_Utils.RNum (Qmake (Zpos a) b) =>
      if (BinPos.Pos.to_nat a < BinPos.Pos.to_nat b)%N then
        let part := (BinPos.Pos.to_nat a)%:R / (BinPos.Pos.to_nat b)%:R in \tr (kmat kernel X X) != 0 ->
        part * \tr (kmat kernel X X) <= \sum_j eo_s o 0 j ^+ 2 /\
        forall r', (r' < eo_r o)%N -> \sum_(j < eo_r o | (j < r')%N) eo_s o 0 j ^+ 2 < part * \tr (kmat kernel X X)
      else eo_r o = m
  | Model_Utils.RNum _ => eo_r o = m
  end.
Proof.
have [b [RX RY HV ->]] := fit_facts; eexists; split; first reflexivity.
have RP := real_Phi RX; rewrite -[eo_s _]/(fs_s f) -[eo_r _]/(nat_of_ord (fs_r f)) -/G.
by clear -HG RP Hphi; move: HG; rewrite /f G_Phi => HG'; exact: feat_rank.
Qed.

Lemma SpE : real_mx X -> Sp = diag_mx (\row_j (fs_s f 0 j)^-1).
Proof. by move=> RX; have [Hs _ _ _ _] := feat_all RX; exact: pinv_diag_recip. Qed.
Lemma KV : K *m V = V *m diag_mx w.
Proof. by case: (Eeig K). Qed.
Let R := Phi^T *m fs_Q f *m Sp.
Lemma psiE a (x : 'M[C]_(n, a)) : kmat kernel x X *m fs_Q f *m Sp *m V = (features phi x)^T *m (R *m V).
Proof. by rewrite PhiE /R trmxK !mulmxA. Qed.

(** ** Koopman eigenfunctions: every kernel *)
(** If the kernel values of the images are combinations of the Gramian's columns (so when it is invertible), each
    eigenfunction of the training images is its eigenvalue times that of the training points. *)
Theorem C39_training : exists r (w : 'rV[C]_r) (psi : 'cV[C]_n -> 'rV[C]_r) k (idx : 'I_k -> 'I_r),
  [/\ selects (fun l => tiny C < `|w 0 l|) idx, edmd_eigs d' = Some (existT _ k (\row_j w 0 (idx j))),
      forall x, real_mx x -> eigenfunctions np kernel d' (Vec x) = Ok (existT _ r (psi x)) &
      (\rank (kmat kernel X X) <= r)%N -> (exists Z, kmat kernel Y X = kmat kernel X X *m Z) ->
      forall j, psi (col j Y) = psi (col j X) *m diag_mx w].
Proof.
have [b [RX RY HV ->]] := fit_facts.
exists (fs_r f), w, (fun x => kmat kernel x X *m fs_Q f *m Sp *m V), _, (fun j : 'I_#|[pred j | tiny C < `|w 0 j|]| => enum_val j).
split=> //; first exact: mask_selects.
  move=> x Rx; rewrite /eigenfunctions /= /pairwise_kernels Rx RX /=.
  by case: eqP=> // E; rewrite (eq_axiomK E) castmx_id.
move=> Hr [Z EZ] j; have [Hs H1 H2 H3 H4] := feat_all RX.
have ES := SpE RX; have HKV := KV; rewrite /K in HKV.
have [c Ec] := H4 Hr.
have EA : kmat kernel Y X = fs_Q f *m diag_mx (\row_j (fs_s f 0 j != 0)%:R : 'rV[C]_(fs_r f)) *m (c *m Phi^T *m Z).
  by rewrite EZ -/G G_Phi {1}Ec !mulmxA.
have T : kmat kernel Y X *m fs_Q f *m Sp *m V = G *m fs_Q f *m Sp *m V *m diag_mx w.
  by rewrite ES; apply: (training H1 H3 _ EA); rewrite -ES.
have row_k (A : 'M[C]_(n, m)) : kmat kernel (col j A) X = row j (kmat kernel A X).
  apply/matrixP=> i l; rewrite !mxE; congr (kernel _ _); apply/matrixP=> a0 b0; by rewrite !mxE.
rewrite !row_k -!row_mul; congr (row j _).
by rewrite T /G.
Qed.

(** ** Koopman eigenfunctions: kernels of finitely many features, on which the system acts linearly *)
Section Linear.
Variable B : 'M[C]_p.
Hypothesis HB : forall j, phi (col j Y) = B *m phi (col j X).
Lemma featY : features phi Y = B *m features phi X.
Proof.
apply/matrixP=> i j; rewrite mxE HB !mxE; apply: eq_bigr=> l _; by rewrite !mxE.
Qed.
Lemma core_facts : real_mx X -> V \in unitmx ->
  [/\ R^T *m R = diag_mx (\row_j (fs_s f 0 j != 0)%:R : 'rV[C]_(fs_r f)),
      (\rank G <= fs_r f)%N -> forall a (z : 'M[C]_(m, a)), R *m R^T *m (Phi^T *m z) = Phi^T *m z,
      K = R^T *m B^T *m R & diag_mx (\row_j (fs_s f 0 j != 0)%:R : 'rV[C]_(fs_r f)) *m K^T = K^T].
Proof.
move=> RX HV; have [Hs H1 H2 H3 H4] := feat_all RX; have ES := SpE RX.
have EK : K = diag_mx (\row_j (fs_s f 0 j)^-1) *m (fs_Q f)^T *m (Phi *m B^T *m Phi^T) *m fs_Q f *m diag_mx (\row_j (fs_s f 0 j)^-1).
  by rewrite /K -ES PhiE featY /Phi trmxK trmx_mul.
rewrite /R ES; split.
- exact: (RTR H1 H3 G_Phi).
- by move=> Hr a z; apply: (RRT H1 H2 H3 G_Phi (H4 Hr)).
- by rewrite {1}EK -(KE _ _).
- by rewrite {1 2}EK (DK _ _ _ _).
Qed.

(** Whatever the features of a point are, as long as training features span them: each eigenfunction is multiplied
    by its eigenvalue in one step of the system; the state, if it is linear in the features, is the sum of modes
    times eigenfunctions, and one step further the same with the eigenvalues. *)
Theorem C39_koopman (H : 'M[C]_(n, p)) : X = H *m features phi X ->
  exists r (w : 'rV[C]_r) (M : 'M[C]_(n, r)) (psi : 'cV[C]_n -> 'rV[C]_r) k (idx : 'I_k -> 'I_r),
  [/\ selects (fun l => tiny C < `|w 0 l|) idx, edmd_eigs d' = Some (existT _ k (\row_j w 0 (idx j))),
      edmd_modes d' = Some (existT _ k (\matrix_(i, j) M i (idx j))),
      forall x, real_mx x -> eigenfunctions np kernel d' (Vec x) = Ok (existT _ r (psi x)) &
      (\rank (kmat kernel X X) <= r)%N ->
      forall x x', (exists z, phi x = features phi X *m z) -> phi x' = B *m phi x ->
      [/\ psi x' = psi x *m diag_mx w, M *m (psi x)^T = H *m phi x &
          (exists z, phi x' = features phi X *m z) -> M *m diag_mx w *m (psi x)^T = H *m phi x']].
Proof.
move=> EX; have [b [RX RY HV ->]] := fit_facts.
exists (fs_r f), w, M, (fun x => kmat kernel x X *m fs_Q f *m Sp *m V), _, (fun j : 'I_#|[pred j | tiny C < `|w 0 j|]| => enum_val j).
split=> //; first exact: mask_selects.
  move=> x Rx; rewrite /eigenfunctions /= /pairwise_kernels Rx RX /=.
  by case: eqP=> // E; rewrite (eq_axiomK E) castmx_id.
move=> Hr x x' [z Ez] Ex'.
have [F1 F2 F3 F4] := core_facts RX HV; have {}F2 := F2 Hr.
have phi_feat (y : 'cV[C]_n) : features phi y = phi y.
  by apply/matrixP=> i j; rewrite mxE (_ : col j y = y) ?ord1 //; apply/matrixP=> a0 b0; rewrite mxE !ord1.
have EM : M = H *m (R *m (invmx V)^T) by rewrite /M {1}EX /R /Phi trmxK !mulmxA.
have Ez' : phi x = Phi^T *m z by rewrite trmxK.
rewrite !psiE !phi_feat; split.
- by rewrite Ex'; apply: (koopman F2 F3 KV Ez').
- by rewrite EM -mulmxA (state F2 HV (erefl (R *m (invmx V)^T)) Ez').
- move=> [z' E']; have E2 : B *m phi x = Phi^T *m z' by rewrite -Ex' trmxK.
  have ST := step F2 F3 KV HV (erefl (R *m (invmx V)^T)) Ez' E2.
  by rewrite EM Ex' -[in RHS]ST !mulmxA.
Qed.
End Linear.
End Features.

(** ** The linear kernel: DMD with projected modes *)
Definition linear_kernel : Prop := forall x y : 'cV[C]_n, kernel x y = (x^T *m y) 0 0.
Section LinearKernel.
Hypothesis Hlin : linear_kernel.
Hypothesis HG : eig_sym_ok np G.
Lemma lin_feature : feature_kernel kernel (fun x => x). Proof. by split. Qed.
Lemma featuresE a (A : 'M[C]_(n, a)) : features (fun x => x) A = A.
Proof. by apply/matrixP=> i j; rewrite !mxE. Qed.

(** Every returned pair is an eigenpair of X X^+ Y X^+, and no mode is zero. *)
Theorem C39_linear (P : 'M[C]_(m, n)) : is_pinv X P -> exists k (e : 'rV[C]_k) (Phi : 'M[C]_(n, k)) r,
  [/\ edmd_eigs d' = Some (existT _ k e), edmd_modes d' = Some (existT _ k Phi),
      (exists o, ed_op_of d' = Some (existT _ m o) /\ eo_r o = r),
      (forall j, col j Phi != 0 /\ tiny C < `|e 0 j|) &
      (\rank (kmat kernel X X) <= r)%N -> X *m P *m Y *m P *m Phi = Phi *m diag_mx e /\ X *m P *m Phi = Phi].
Proof.
move=> HP; have [b [RX RY HV ->]] := fit_facts.
have RP := real_Phi lin_feature RX.
have [Hs H1 H2 H3 H4] := feat_all lin_feature HG RX; have ES := SpE lin_feature HG RX.
rewrite featuresE in H4.
have GX : G = X^T *m X by have := G_Phi lin_feature; rewrite featuresE trmxK.
have YX := PhiE lin_feature Y X; rewrite !featuresE in YX.
have RQ : real_mx (fs_Q f).
  by have GP := G_Phi lin_feature; move: HG; rewrite /f GP => HG'; exact: feat_real.
have EK : K = Sp *m (fs_Q f)^T *m (Y^T *m X) *m fs_Q f *m Sp by rewrite /K YX.
have HKV := KV.
have nz := lin_nz ES erefl H1 H3 GX erefl EK HKV HV erefl.
have LE := lin_eig ES erefl H1 H2 H3 GX HP RX RQ Hs erefl EK HKV HV erefl.
have LR := lin_range HP (erefl (X *m fs_Q f *m Sp)) (erefl (X *m fs_Q f *m Sp *m (invmx V)^T)).
clear -nz LE LR H4 HP.
eexists _, _, _, (fs_r f); split; [reflexivity|reflexivity|by eexists; split; first reflexivity| |].
  move=> j; have Hj : tiny C < `|w 0 (enum_val j)| := enum_valP j; split; last by rewrite mxE.
  have Hn : w 0 (enum_val j) != 0.
    by rewrite -normr_gt0; apply: lt_trans Hj; rewrite invr_gt0 exprn_gt0 // ltr0n.
  have /negP := nz _ Hn; move=> N; apply/negP=> /eqP/colP E; apply: N; apply/eqP/colP=> i.
  by have := E i; rewrite !mxE.
move=> Hr; split; last exact: mask_fix.
by apply: mask_take; exact: (LE (H4 Hr)).
Qed.

(** Data of a linear system that keeps the span of the snapshots: eigenpairs of the system. *)
Theorem C39_linear_system (B : 'M[C]_n) Z : Y = B *m X -> Y = X *m Z ->
  exists k (e : 'rV[C]_k) (Phi : 'M[C]_(n, k)) r,
  [/\ edmd_eigs d' = Some (existT _ k e), edmd_modes d' = Some (existT _ k Phi),
      (exists o, ed_op_of d' = Some (existT _ m o) /\ eo_r o = r),
      (forall j, col j Phi != 0) &
      (\rank (kmat kernel X X) <= r)%N -> B *m Phi = Phi *m diag_mx e].
Proof.
move=> EB EZ; have HP := ginv_ok X; have [k [e [Phi [r [E1 E2 E3 E4 E5]]]]] := C39_linear HP.
exists k, e, Phi, r; split=> // [j|Hr]; first by case: (E4 j).
have [E6 E7] := E5 Hr; rewrite -{}E6; case: HP=> P1 _ _ _.
have -> : X *m ginv X *m Y = Y by rewrite EZ mulmxA P1.
by rewrite EB -[in LHS]E7 !mulmxA.
Qed.
End LinearKernel.
End Fit.
End Main.

(** Refuted: "one eigenfunction per eigenvalue".  For the pair 1 -> 0 the only eigenvalue is dropped, while the
    eigenfunctions still return one value, whatever the calls do. *)
Theorem C39_count_refuted (C : numClosedFieldType) (np : numpy C) d' (X Y x : 'M[C]_1) : X = 1 -> Y = 0 -> x = 1 ->
  (forall r (A : 'M[C]_r), eig_ok np A) ->
  let kernel := fun a b : 'cV[C]_1 => (a^T *m b) 0 0 in
  edmd_fit_xy np kernel (Edmd (Model_Utils.RInt (Zneg xH)) 0 (OptBool false) None None None) X Y = (d', Ok tt) ->
  exists e v, edmd_eigs d' = Some (existT _ 0%N e) /\ eigenfunctions np kernel d' (Vec x) = Ok (existT _ 1%N v).
Proof.
move=> EX EY Ex Eeig kernel; set d0 := Edmd _ _ _ _ _ _ => Ef.
have [b [RX RY HV ->]] := fit_facts (erefl : ed_tlsq d0 = 0) Ef; move: HV.
set f := feat _ _ _; set K := _ *m np_pinv np _; set w := (np_eig np K).1; set V := (np_eig np K).2 => HV.
have Er : nat_of_ord (fs_r f) = 1%N by exact: (@inordK 1 1).
have K0 : K = 0.
  rewrite /K (_ : kmat kernel Y X = 0) ?mulmx0 ?mul0mx //.
  by apply/matrixP=> i j; rewrite mxE /kernel EY !mxE big1 // => l _; rewrite !mxE mul0r.
have w0 j : w 0 j = 0.
  have [E _] := Eeig _ K; rewrite -/w -/V K0 mul0mx in E.
  have : diag_mx w = 0 by rewrite -(mulKmx HV (diag_mx w)) -E mulmx0.
  by move/matrixP/(_ j j); rewrite !mxE eqxx.
have E0 : #|[pred j | tiny C < `|w 0 j|]| = 0%N.
  apply: eq_card0=> j; rewrite !inE w0 normr0 le_gtF // invr_ge0 exprn_ge0 // ler0n //.
have gen1 k (A : 'rV[C]_k) : k = 0%N -> exists e, existT (fun k => 'rV[C]_k) k A = existT _ 0%N e.
  by move=> Ek; move: A; rewrite Ek => A; exists A.
have gen2 r (Q0 : 'M[C]_(1, r)) : r = 1%N -> exists v, existT (fun k => 'rV[C]_k) r Q0 = existT _ 1%N v.
  by move=> Ek; move: Q0; rewrite Ek => A; exists A.
have [e E1] := gen1 _ (mask_eigs [pred j | tiny C < `|w 0 j|] w) E0.
have [v E2] := gen2 _ (kmat kernel X X *m fs_Q f *m np_pinv np (diag_mx (fs_s f)) *m V) Er.
exists e, v; split; first by rewrite -E1.
rewrite -E2 Ex -EX /eigenfunctions [ed_op_of _]/= [ed_snap _]/= /pairwise_kernels RX /=.
by case: eqP=> // E; rewrite (eq_axiomK E) castmx_id.
Qed.

(** ** The hypotheses are met: features x and x^2, training points 1 and -1 of x' = 2x *)
Section Met.
Variable C : numClosedFieldType.
Definition diag_eig r (A : 'M[C]_r) : 'rV[C]_r * 'M[C]_r := if is_diag_mx A then (\row_j A j j, 1%:M) else ideal_eig A.
Definition ex_np : numpy C := 
  let i := ideal C in Numpy (np_svd i) (np_rank i) diag_eig (np_sqrtm i) (np_norm i) (np_lstsq i) (np_solve i) (np_pinv i) (np_power i).
Lemma ex_eig r (A : 'M[C]_r) : eig_ok ex_np A.
Proof.
rewrite /eig_ok /= /diag_eig; case: ifP=> [/is_diag_mxP H|_]; last exact: ideal_eigP.
split=> /=.
  rewrite mulmx1 mul1mx; apply/matrixP=> i j; rewrite !mxE; case: eqP=> [->|/eqP N]; first by rewrite mulr1n.
  by rewrite mulr0n H.
move=> j; rewrite (bigD1 j) //= big1 => [|i N]; first by rewrite mxE eqxx normr1 expr1n addr0.
by rewrite mxE (negbTE N) normr0 expr0n.
Qed.
Definition ex_kernel (x y : 'cV[C]_1) : C := x 0 0 * y 0 0 + (x 0 0 * y 0 0) ^+ 2.
Definition ex_phi (x : 'cV[C]_1) : 'cV[C]_2 := \col_i (if i == 0 then x 0 0 else x 0 0 ^+ 2).
Definition ex_X : 'M[C]_(1, 2) := \row_j (if j == 0 then 1 else -1).
Definition ex_Y : 'M[C]_(1, 2) := 2%:R *: ex_X.
Definition ex_B : 'M[C]_2 := diag_mx (\row_j (if j == 0 then 2%:R else 4%:R)).
Definition ex_H : 'M[C]_(1, 2) := \row_j (if j == 0 then 1 else 0).
Definition ex_d : edmd C 1 := Edmd (Model_Utils.RInt (Zneg xH)) 0 (OptBool false) None None None.
Lemma ex_G : kmat ex_kernel ex_X ex_X = 2%:R%:M.
Proof.
apply/matrixP=> i j; rewrite !mxE /ex_kernel !mxE.
by case: i=> [[|[|//]] ?]; case: j=> [[|[|//]] ?] /=; rewrite ?mulr1 ?mulrNN ?mulN1r ?mul1r ?expr1n ?sqrrN ?expr1n ?mulr1n ?mulr0n ?addNr.
Qed.
Lemma ex_A i j : kmat ex_kernel ex_Y ex_X i j = if i == j then 6%:R else 2%:R.
Proof.
rewrite !mxE /ex_kernel !mxE.
case: i=> [[|[|//]] ?]; case: j=> [[|[|//]] ?]; rewrite /= ?mulr1 ?mulrN1 ?mulrN ?mulr1 ?opprK ?sqrrN -natrX -?natrD //.
  by apply/eqP; rewrite addrC subr_eq -natrD.
by apply/eqP; rewrite addrC subr_eq -natrD.
Qed.
Lemma ex_Geig : np_eig ex_np (kmat ex_kernel ex_X ex_X) = (const_mx 2%:R, 1%:M).
Proof.
rewrite /= /diag_eig ex_G (_ : is_diag_mx _ = true); last first.
  by apply/is_diag_mxP=> i j N; rewrite mxE -val_eqE (negbTE N).
by congr pair; apply/rowP=> j; rewrite !mxE eqxx.
Qed.
Lemma ex_sym : eig_sym_ok ex_np (kmat ex_kernel ex_X ex_X).
Proof.
have := @ex_eig _ (kmat ex_kernel ex_X ex_X); rewrite /eig_ok /eig_sym_ok ex_Geig [_.1]/= [_.2]/= => H; split=> //.
- by apply/real_mxP=> i j; rewrite mxE; case: (i == j); rewrite ?rpred1 ?rpred0.
- exact: unitmx1.
- by move=> i j N _ _; rewrite trmx1 mulmx1 mxE (negbTE N).
Qed.
Lemma ex_diag r (K : 'M[C]_r) : r = 2%N -> (forall i j, K i j = if i == j then 3%:R else 1) -> diagonal_in K.
Proof.
move=> Er; move: K; rewrite {}Er => K HK.
pose W : 'M[C]_2 := \matrix_(i, j) (if (i == 1) && (j == 1) then -1 else 1).
exists W, (\row_j (if j == 0 then 4%:R else 2%:R)); split.
  have E : W *m (2%:R^-1 *: W) = 1%:M.
    apply/matrixP=> i j; rewrite !mxE !big_ord_recl big_ord0 !mxE.
    have H2 : (2%:R : C) != 0 by rewrite pnatr_eq0.
    case: i=> [[|[|//]] ?]; case: j=> [[|[|//]] ?]; rewrite /= ?mulr1 ?mul1r ?mulrN1 ?mulN1r ?opprK addr0 ?subrr ?addNr //.
    + by rewrite -mulr2n -mulr_natl mulfV.
    + by rewrite -mulr2n -mulr_natl mulfV.
  by have [] := mulmx1_unit E.
apply/matrixP=> i j; rewrite mul_mx_diag !mxE !big_ord_recl big_ord0 !mxE !HK.
case: i=> [[|[|//]] ?]; case: j=> [[|[|//]] ?]; rewrite /= ?mulr1 ?mul1r ?mulrN1 ?mulN1r addr0.
+ by rewrite -(natrD _ 3 1).
+ by apply/eqP; rewrite subr_eq -(natrD _ 2 1).
+ by rewrite -(natrD _ 1 3).
+ by rewrite -opprB; congr (- _); apply/eqP; rewrite subr_eq -(natrD _ 2 1).
Qed.
Lemma ex_XP : real_mx ex_X.
Proof. by apply/real_mxP=> i j; rewrite mxE; case: (j == 0); rewrite ?rpredN rpred1. Qed.
Lemma ex_YP : real_mx ex_Y.
Proof. by apply/real_mxP=> i j; rewrite mxE rpredM ?realn //; exact: (real_mxP _ ex_XP). Qed.
Lemma ex_phiP : feature_kernel ex_kernel ex_phi.
Proof.
split=> [x /real_mxP H|x y].
  by apply/real_mxP=> i j; rewrite mxE; case: (i == 0); rewrite ?rpredX.
by rewrite !mxE !big_ord_recl big_ord0 !mxE /= addr0 -exprMn.
Qed.
Example C39_example : exists d',
  [/\ edmd_fit_xy ex_np ex_kernel ex_d ex_X ex_Y = (d', Ok tt),
      feature_kernel ex_kernel ex_phi /\ eig_sym_ok ex_np (kmat ex_kernel ex_X ex_X),
      (forall r (A : 'M[C]_r), eig_ok ex_np A) /\ (forall a b (A : 'M[C]_(a, b)), pinv_ok ex_np A),
      (forall j, ex_phi (col j ex_Y) = ex_B *m ex_phi (col j ex_X)) /\ ex_X = ex_H *m features ex_phi ex_X &
      (\rank (kmat ex_kernel ex_X ex_X) <= 2)%N /\ kmat ex_kernel ex_X ex_X \in unitmx].
Proof.
have Epinv a b (A : 'M[C]_(a, b)) : pinv_ok ex_np A by exact: ginv_ok.
pose w : 'rV[C]_2 := const_mx 2%:R.
pose f := feat w (1%:M : 'M[C]_2) (ed_rank ex_d).
have Er : nat_of_ord (fs_r f) = 2%N by exact: (@inordK 2 2).
have Hle : (fs_r f <= 2)%N by rewrite Er.
pose e (j : 'I_(fs_r f)) : 'I_2 := argsort_desc (svals w) (widen_ord Hle j).
have e_inj : injective e by move=> i j /argsort_inj [] /val_inj.
have Re2 : 'Re (2%:R : C) = 2%:R by apply/Creal_ReP; rewrite realn.
have sE j : fs_s f 0 j = sqrtC 2%:R by rewrite !mxE Re2 le_gtF ?ler0n.
have QE i j : fs_Q f i j = (i == e j)%:R.
  rewrite !mxE Re2 le_gtF ?ler0n //; congr ((_ == _)%:R); congr argsort_desc; exact: val_inj.
have Sp : np_pinv ex_np (diag_mx (fs_s f)) = (sqrtC 2%:R)^-1%:M.
  rewrite pinv_diag_recip //; last by move=> j; rewrite sE sqrtC_ge0 ler0n.
  by rewrite -diag_const_mx; congr diag_mx; apply/rowP=> j; rewrite mxE sE mxE.
set K := np_pinv ex_np (diag_mx (fs_s f)) *m (fs_Q f)^T *m kmat ex_kernel ex_Y ex_X *m fs_Q f *m np_pinv ex_np (diag_mx (fs_s f)).
have KE i j : K i j = if i == j then 3%:R else 1.
  have -> : K = 2%:R^-1 *: ((fs_Q f)^T *m kmat ex_kernel ex_Y ex_X *m fs_Q f).
    rewrite /K Sp mul_mx_scalar -!mulmxA mul_scalar_mx scalerA -expr2 exprVn sqrtCK //.
  have QtAQ : ((fs_Q f)^T *m kmat ex_kernel ex_Y ex_X *m fs_Q f) i j = kmat ex_kernel ex_Y ex_X (e i) (e j).
    rewrite mxE (bigD1 (e j)) //= big1 => [|l N]; last by rewrite QE (negbTE N) mulr0.
    rewrite addr0 QE eqxx mulr1 mxE (bigD1 (e i)) //= big1 => [|l N]; last by rewrite mxE QE (negbTE N) mul0r.
    by rewrite addr0 mxE QE eqxx mul1r.
  rewrite mxE QtAQ ex_A (inj_eq e_inj); have H2 : (2%:R : C) != 0 by rewrite pnatr_eq0.
  by case: eqP=> _; apply: (mulfI H2); rewrite mulrA mulfV // mul1r ?mulr1 // -natrM.
have HV : (np_eig ex_np K).2 \in unitmx.
  rewrite [np_eig _ _]/= /diag_eig; case: ifP=> _; first exact: unitmx1.
  exact/ideal_eig_basis/ex_diag.
have [d' Ed] : exists d', edmd_fit_xy ex_np ex_kernel ex_d ex_X ex_Y = (d', Ok tt).
  exact: (fit_ok (d := ex_d) erefl erefl ex_XP ex_YP ex_Geig HV).
exists d'; split=> //; first by split; [exact: ex_phiP|exact: ex_sym].
- by split; [exact: ex_eig|].
- split.
    move=> j; rewrite mul_diag_mx; apply/colP=> i; rewrite !mxE.
    case: i=> [[|[|//]] ?] /=; rewrite // exprMn -natrX //.
  by apply/matrixP=> i j; rewrite !mxE !big_ord_recl big_ord0 !mxE /= mul1r mul0r !addr0.
- split; first exact: rank_leq_row.
  by rewrite ex_G unitmxE det_scalar unitrX // unitfE pnatr_eq0.
Qed.
End Met.

Print Assumptions C39_constructor.
Print Assumptions C39_complex.
Print Assumptions C39_one_argument_refuted.
Print Assumptions C39_one_argument.
Print Assumptions C39_paired.
Print Assumptions C39_svd_vals.
Print Assumptions C39_rank.
Print Assumptions C39_training.
Print Assumptions C39_koopman.
Print Assumptions C39_linear.
Print Assumptions C39_linear_system.
Print Assumptions C39_count_refuted.
Print Assumptions C39_example.
