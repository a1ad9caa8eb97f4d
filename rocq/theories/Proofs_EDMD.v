(** * Proofs about EDMD *)
From Coq Require Import QArith.
From mathcomp Require Import all_ssreflect all_fingroup all_algebra all_field.
From Verif Require Import Py LinAlg Witness Model_Operator Spec_Operator Proofs_OpCore Proofs_Operator Proofs_Subspace Model_EDMD Spec_EDMD.
From Verif Require Model_Utils Proofs_Utils.
Set Implicit Arguments. Unset Strict Implicit. Unset Printing Implicit Defensive.
Import Order.TTheory GRing.Theory Num.Theory.
Local Open Scope ring_scope.

(** ** Algebra, over any field: transposes only *)
Section Core.
Variables (F : fieldType) (m r : nat) (G : 'M[F]_m) (Q : 'M[F]_(m, r)) (s : 'rV[F]_r).
Notation S := (diag_mx s).
Notation Sp := (diag_mx (\row_j (s 0 j)^-1)).
Notation D := (diag_mx (\row_j (s 0 j != 0)%:R : 'rV[F]_r)).
Hypothesis G1 : G *m Q = Q *m (S *m S).
Hypothesis Gs : G^T = G.
Hypothesis G3 : D *m (Q^T *m Q) *m D = D.

Lemma diag_eq (a b : 'rV[F]_r) : (forall j, a 0 j = b 0 j) -> diag_mx a = diag_mx b.
Proof. by move=> H; congr diag_mx; apply/rowP. Qed.
Lemma tr_diag (a : 'rV[F]_r) : (diag_mx a)^T = diag_mx a.
Proof. by rewrite tr_diag_mx. Qed.
Lemma SSp : S *m Sp = D.
Proof. by rewrite mulmx_diag; apply: diag_eq=> j; rewrite !mxE; case: eqP=> [->|/eqP N]; rewrite ?mul0r ?divff. Qed.
Lemma SpS : Sp *m S = D.
Proof. by rewrite diag_mxC SSp. Qed.
Lemma DS : D *m S = S.
Proof. by rewrite mulmx_diag; apply: diag_eq=> j; rewrite !mxE; case: eqP=> [->|/eqP N]; rewrite ?mul0r ?mul1r. Qed.
Lemma DSp : D *m Sp = Sp.
Proof. by rewrite mulmx_diag; apply: diag_eq=> j; rewrite !mxE; case: eqP=> [->|/eqP N]; rewrite ?invr0 ?mul0r ?mul1r. Qed.
Lemma SD : S *m D = S. Proof. by rewrite diag_mxC DS. Qed.
Lemma SpD : Sp *m D = Sp. Proof. by rewrite diag_mxC DSp. Qed.
Lemma DD : D *m D = D. Proof. by rewrite -{1}SSp -mulmxA SpD SSp. Qed.
Section Absorb.
Variables (a : nat) (c : 'M[F]_(r, a)).
Lemma SSpA : S *m (Sp *m c) = D *m c. Proof. by rewrite mulmxA SSp. Qed.
Lemma SpSA : Sp *m (S *m c) = D *m c. Proof. by rewrite mulmxA SpS. Qed.
Lemma DSA : D *m (S *m c) = S *m c. Proof. by rewrite mulmxA DS. Qed.
Lemma DSpA : D *m (Sp *m c) = Sp *m c. Proof. by rewrite mulmxA DSp. Qed.
Lemma SDA : S *m (D *m c) = S *m c. Proof. by rewrite mulmxA SD. Qed.
Lemma SpDA : Sp *m (D *m c) = Sp *m c. Proof. by rewrite mulmxA SpD. Qed.
Lemma G1A b (d : 'M[F]_(r, b)) : G *m (Q *m d) = Q *m (S *m (S *m d)). Proof. by rewrite mulmxA G1 -!mulmxA. Qed.
Lemma G3A : D *m (Q^T *m (Q *m (D *m c))) = D *m c. Proof. by rewrite -[in RHS]G3 !mulmxA. Qed.
End Absorb.

Lemma QTG : Q^T *m G = S *m S *m Q^T.
Proof. by apply: trmx_inj; rewrite !trmx_mul !trmxK Gs G1 !tr_diag !mulmxA. Qed.
(** the projector on the columns of non-zero singular value *)
Lemma QDQ a (c : 'M[F]_(r, a)) : Q *m D *m Q^T *m (Q *m D *m c) = Q *m D *m c.
Proof.
by rewrite -!mulmxA G3A.
Qed.

Section Kernel.
Variables (A : 'M[F]_m) (V : 'M[F]_r) (w : 'rV[F]_r).
Let K := Sp *m Q^T *m A *m Q *m Sp.
Hypothesis KV : K *m V = V *m diag_mx w.
(** the eigenfunctions on the training pairs *)
Lemma training (Z : 'M[F]_(r, m)) : A = Q *m D *m Z -> A *m Q *m Sp *m V = G *m Q *m Sp *m V *m diag_mx w.
Proof.
move=> EA; rewrite -(mulmxA _ V) -KV /K -!mulmxA G1A SSpA SDA SSpA.
by rewrite [in LHS]EA -(QDQ Z) -EA -!mulmxA.
Qed.
End Kernel.

Section Features.
Variables (p : nat) (Phi : 'M[F]_(m, p)) (B : 'M[F]_p) (V : 'M[F]_r) (w : 'rV[F]_r).
Hypothesis GPhi : G = Phi *m Phi^T.
Hypothesis G4 : exists c, Phi = Q *m D *m c.
Let R := Phi^T *m Q *m Sp.
Let K := Sp *m Q^T *m (Phi *m B^T *m Phi^T) *m Q *m Sp.
Hypothesis KV : K *m V = V *m diag_mx w.

Lemma RTR : R^T *m R = D.
Proof.
rewrite /R !trmx_mul trmxK tr_diag -!mulmxA (mulmxA Phi) -GPhi G1A SSp SD.
by rewrite -SpDA -[in X in Q *m X]DS G3A SpDA SpS.
Qed.
Lemma RRT a (z : 'M[F]_(m, a)) : R *m R^T *m (Phi^T *m z) = Phi^T *m z.
Proof.
have E : R *m R^T *m Phi^T = Phi^T.
  rewrite /R !trmx_mul trmxK tr_diag -!mulmxA -GPhi QTG -!mulmxA SpSA DSA SpSA.
  have [c Ec] := G4; have EP : Q *m D *m Q^T *m Phi = Phi by rewrite Ec QDQ.
  by apply: trmx_inj; rewrite !trmx_mul !trmxK tr_diag ?mulmxA EP.
by rewrite mulmxA E.
Qed.
Lemma KE : K = R^T *m B^T *m R.
Proof. by rewrite /K /R !trmx_mul trmxK tr_diag !mulmxA. Qed.
Lemma DK : D *m K^T = K^T.
Proof. by rewrite /K !trmx_mul tr_diag !mulmxA DSp. Qed.
End Features.
End Core.

Section Core2.
Variables (F : fieldType) (m p r : nat) (Phi : 'M[F]_(m, p)) (B : 'M[F]_p) (V K D : 'M[F]_r) (w : 'rV[F]_r) (R : 'M[F]_(p, r)).
Hypothesis RTR : R^T *m R = D.
Hypothesis RRT : forall a (z : 'M[F]_(m, a)), R *m R^T *m (Phi^T *m z) = Phi^T *m z.
Hypothesis KE : K = R^T *m B^T *m R.
Hypothesis DK : D *m K^T = K^T.
Hypothesis KV : K *m V = V *m diag_mx w.

(** an eigenfunction at a point whose features are in the span of the training ones *)
Lemma koopman (f : 'cV[F]_p) z : f = Phi^T *m z -> (B *m f)^T *m (R *m V) = f^T *m (R *m V) *m diag_mx w.
Proof.
move=> Ef; have RR : f^T *m (R *m R^T) = f^T.
  by apply: trmx_inj; rewrite trmx_mul trmx_mul !trmxK Ef RRT.
rewrite -(mulmxA _ _ (diag_mx w)) -(mulmxA R) -KV KE trmx_mul -[in LHS]RR.
by rewrite !mulmxA.
Qed.
Hypothesis HV : V \in unitmx.
Variable M : 'M[F]_(p, r).
Hypothesis EM : M = R *m (invmx V)^T.
Lemma KTE : K^T = (invmx V)^T *m diag_mx w *m V^T.
Proof. by rewrite -[K]mulmx1 -(mulmxV HV) (mulmxA K) KV !trmx_mul tr_diag_mx mulmxA. Qed.
Lemma VTi : (invmx V)^T *m V^T = 1%:M.
Proof. by rewrite -trmx_mul mulmxV // trmx1. Qed.
Lemma VTi' : V^T *m (invmx V)^T = 1%:M.
Proof. by rewrite -trmx_mul mulVmx // trmx1. Qed.

Lemma state (f : 'cV[F]_p) z : f = Phi^T *m z -> M *m (f^T *m (R *m V))^T = f.
Proof.
move=> Ef; have RR : R *m R^T *m f = f by rewrite Ef RRT.
by rewrite EM !trmx_mul trmxK -!mulmxA (mulmxA (invmx V)^T) VTi mul1mx mulmxA.
Qed.
Lemma step (f : 'cV[F]_p) z z' : f = Phi^T *m z -> B *m f = Phi^T *m z' ->
  M *m diag_mx w *m (f^T *m (R *m V))^T = B *m f.
Proof.
move=> Ef E; have RR : R *m R^T *m f = f by rewrite Ef RRT.
have RR' : R *m R^T *m (B *m f) = B *m f by rewrite E RRT.
rewrite EM !trmx_mul trmxK -!mulmxA (mulmxA (diag_mx w)) (mulmxA (invmx V)^T) (mulmxA (invmx V)^T) -KTE KE !trmx_mul !trmxK.
by rewrite -!mulmxA (mulmxA R R^T f) RR (mulmxA R).
Qed.
(** the modes: eigenvectors of the compression of [B] on the span of the features *)
Lemma mode_eigen : R *m R^T *m B *m M = M *m diag_mx w.
Proof.
rewrite EM -!mulmxA; have -> : R^T *m (B *m (R *m (invmx V)^T)) = K^T *m (invmx V)^T by rewrite KE !trmx_mul !trmxK !mulmxA.
by rewrite KTE -!mulmxA VTi' mulmx1.
Qed.
Lemma mode_nz j : w 0 j != 0 -> col j M != 0.
Proof.
move=> Hw; apply/negP=> /eqP E.
have Ev : D *m (invmx V)^T *m diag_mx w = (invmx V)^T *m diag_mx w.
  have E1 : (invmx V)^T *m diag_mx w = K^T *m (invmx V)^T by rewrite KTE -(mulmxA _ V^T) VTi' mulmx1.
  by rewrite -mulmxA E1 mulmxA DK.
have E0 : col j (D *m (invmx V)^T) = 0 by rewrite -RTR -mulmxA -EM !colE -mulmxA -colE E mulmx0.
have E2 : col j (invmx V)^T = 0.
  apply/colP=> i; rewrite [RHS]mxE; apply: (mulIf Hw); rewrite mul0r.
  have /matrixP/(_ i j) := Ev; rewrite !mul_mx_diag !mxE => <-.
  by have /colP/(_ i) := E0; rewrite !mxE => ->; rewrite mul0r.
have := oner_neq0 F; rewrite -(_ : (V^T *m (invmx V)^T) j j = 1); last by rewrite VTi' mxE eqxx.
by rewrite mxE big1 ?eqxx // => l _; have /colP/(_ l) := E2; rewrite !mxE => ->; rewrite mulr0.
Qed.
End Core2.

Section Prog.
Variable C : numClosedFieldType.
Variable np : numpy C.

Lemma real_mxP a b (A : 'M[C]_(a, b)) : reflect (forall i j, A i j \is Num.real) (real_mx A).
Proof. by apply: (iffP forallP)=> [H i j|H i]; [have /forallP := H i; apply|apply/forallP]. Qed.
Lemma real_adj a b (A : 'M[C]_(a, b)) : real_mx A -> adj A = A^T.
Proof. by move=> /real_mxP H; apply/matrixP=> i j; rewrite adjE mxE conj_Creal. Qed.

(** ** argsort *)
Lemma sort_size k (s : 'rV[C]_k) : size (sort (fun a b => s 0 b <= s 0 a) (enum 'I_k)) = k.
Proof. by rewrite size_sort size_enum_ord. Qed.
Lemma argsort_inj k (s : 'rV[C]_k) : injective (argsort_desc s).
Proof.
move=> i j; rewrite /argsort_desc => E; apply: val_inj; apply/eqP.
rewrite -(@nth_uniq _ i (sort (fun a b => s 0 b <= s 0 a) (enum 'I_k))) ?sort_size ?sort_uniq ?enum_uniq //.
- by rewrite E (set_nth_default i) // sort_size.
- exact: ltn_ord.
- exact: ltn_ord.
Qed.
Lemma argsort_sorted k (s : 'rV[C]_k) : (forall j, 0 <= s 0 j) ->
  forall i j : 'I_k, (i <= j)%N -> s 0 (argsort_desc s j) <= s 0 (argsort_desc s i).
Proof.
move=> Hs i j Hij.
have T : total (fun a b : 'I_k => s 0 b <= s 0 a) by move=> a b; apply: real_leVge; rewrite ger0_real.
have Tr : transitive (fun a b : 'I_k => s 0 b <= s 0 a) by move=> b a c H1 H2; apply: le_trans H2 H1.
have R : reflexive (fun a b : 'I_k => s 0 b <= s 0 a) by move=> a; exact: lexx.
have := sorted_leq_nth Tr R i (sort_sorted T (enum 'I_k)).
move/(_ i j); rewrite !inE !sort_size !ltn_ord => /(_ isT isT Hij).
by rewrite /argsort_desc [X in s 0 X <= _ -> _](set_nth_default j) // sort_size.
Qed.

Definition feat k (w : 'rV[C]_k) (W : 'M[C]_k) (rk : Model_Utils.rank_arg) : fsvd C k :=
  let s' := \row_j svals w 0 (argsort_desc (svals w) j) in
  let r := inord (minn (edmd_rank s' rk) k) in
  @FSvd C k r (take_cols (\matrix_(i, j) flipped w W i (argsort_desc (svals w) j)) r) (take_cols s' r).
Lemma feature_svdE k rk (G : 'M[C]_k) : feature_svd np rk G = feat (np_eig np G).1 (np_eig np G).2 rk.
Proof. by rewrite /feature_svd; case: (np_eig np G). Qed.

(** ** The rank chosen from the energies *)
Lemma card_lt k a : (a <= k)%N -> #|[pred i : 'I_k | (i < a)%N]| = a.
Proof. by move=> H; rewrite -sum1_card (big_ord_narrow H) sum1_card card_ord. Qed.
Lemma card_downset k (P : pred 'I_k) (j : 'I_k) : (forall a b : 'I_k, (a <= b)%N -> P b -> P a) -> P j = (j < #|P|)%N.
Proof.
move=> H; apply/idP/idP=> [Pj|].
  rewrite -(@card_lt k j.+1) // subset_leq_card //; apply/subsetP=> a; rewrite !inE ltnS => Ha; exact: (H a j).
apply: contraTT=> N; rewrite -leqNgt -(@card_lt k j (ltnW (ltn_ord j))) subset_leq_card //.
apply/subsetP=> a; rewrite !inE => Pa; rewrite ltnNge; apply/negP=> Hja; move: N; rewrite (H j a) //.
Qed.
Section Energy.
Variables (k : nat) (s : 'rV[C]_k) (v : C).
Hypothesis (Hs : forall j, 0 <= s 0 j) (Hv0 : 0 < v) (Hv1 : v < 1).
Let t := \sum_i s 0 i ^+ 2.
Hypothesis Ht : t != 0.
Let r := (searchsorted (cumsum (energies s)) v).+1.
Lemma t_gt0 : 0 < t. Proof. by rewrite lt_def Ht sumr_ge0 // => i _; rewrite exprn_ge0. Qed.
Lemma cumE j : cumsum (energies s) 0 j = (\sum_(i < k | (i <= j)%N) s 0 i ^+ 2) / t.
Proof. by rewrite mxE mulr_suml; apply: eq_bigr=> i _; rewrite mxE. Qed.
Lemma cum_lt (j : 'I_k) : (\sum_(i < k | (i <= j)%N) s 0 i ^+ 2 < v * t) = (j.+1 < r)%N.
Proof.
rewrite ltnS /searchsorted -(@card_downset k [pred j0 | cumsum (energies s) 0 j0 < v] j).
  by rewrite inE cumE ltr_pdivr_mulr // t_gt0.
move=> a b Hab; rewrite !inE !cumE; apply: le_lt_trans.
rewrite ler_pmul2r ?invr_gt0 ?t_gt0 // [X in _ <= X](bigID (fun i : 'I_k => (i <= a)%N)) [X in _ <= X]/=.
have -> : \sum_(i < k | (i <= b)%N && (i <= a)%N) s 0 i ^+ 2 = \sum_(i < k | (i <= a)%N) s 0 i ^+ 2.
  by apply: eq_bigl=> i; apply: andb_idl=> H; apply: leq_trans H Hab.
by rewrite ler_addl sumr_ge0 // => i _; rewrite exprn_ge0.
Qed.
Lemma k_gt0 : (0 < k)%N.
Proof. by case: (posnP k)=> // E; move: Ht; rewrite /t big1 ?eqxx // => i _; have := ltn_ord i; rewrite {2}E. Qed.
Lemma rank_le : (r <= k)%N.
Proof.
rewrite leqNgt; apply/negP=> H; have E : (k.-1 < k)%N by rewrite prednK // k_gt0.
have := cum_lt (Ordinal E); rewrite [(_ .+1 < _)%N](_ : _ = true); last by rewrite [val _]/= prednK // k_gt0.
have -> : \sum_(i < k | (i <= Ordinal E)%N) s 0 i ^+ 2 = t.
  by apply: eq_bigl=> i; rewrite -ltnS [val _]/= prednK ?k_gt0 // ltn_ord.
rewrite -[X in X < _]mul1r ltr_pmul2r ?t_gt0 // => L; by have := lt_trans Hv1 L; rewrite ltxx.
Qed.
Lemma energy_reached : v * t <= \sum_(i < k | (i < r)%N) s 0 i ^+ 2.
Proof.
have E : (r.-1 < k)%N by exact: rank_le.
have := cum_lt (Ordinal E); rewrite ltnn => H.
rewrite real_leNgt ?H // ?ger0_real //; first by rewrite mulr_ge0 ?ltW ?t_gt0.
by rewrite sumr_ge0 // => i _; rewrite exprn_ge0.
Qed.
Lemma energy_minimal r' : (r' < r)%N -> \sum_(i < k | (i < r')%N) s 0 i ^+ 2 < v * t.
Proof.
case: r'=> [|j] Hj; first by rewrite big1 // mulr_gt0 ?t_gt0.
have E : (j < k)%N by apply: leq_trans rank_le; apply: ltnW.
by have := cum_lt (Ordinal E); rewrite Hj.
Qed.
End Energy.

Section Feature.
Variables (k p : nat) (Phi : 'M[C]_(k, p)) (rk : Model_Utils.rank_arg).
Let G := Phi *m Phi^T.
Hypothesis HP : real_mx Phi.
Hypothesis HG : eig_sym_ok np G.
Let w := (np_eig np G).1.
Let W := (np_eig np G).2.

Lemma G_herm : adj G = G.
Proof. by rewrite /G adjM -real_adj // adjK. Qed.
Lemma w_ge0 j : 0 <= w 0 j.
Proof.
case: HG=> -[E1 E2] _ _ _; rewrite -/w -/W in E1 E2.
have E : (adj W *m G *m W) j j = w 0 j.
  rewrite -mulmxA E1 mulmxA mul_mx_diag mxE -[RHS]mul1r; congr (_ * _).
  by rewrite mxE -(E2 j); apply: eq_bigr=> i _; rewrite adjE mulrC -normCK.
have -> : w 0 j = (adj (adj Phi *m W) *m (adj Phi *m W)) j j by rewrite -E adjM adjK /G -real_adj // !mulmxA.
by rewrite mxE sumr_ge0 // => i _; rewrite adjE mulrC -normCK exprn_ge0.
Qed.
Lemma svalsE j : svals w 0 j ^+ 2 = w 0 j /\ 0 <= svals w 0 j.
Proof.
have H := w_ge0 j; have R : 'Re (w 0 j) = w 0 j by apply/Creal_ReP; rewrite ger0_real.
by rewrite mxE R le_gtF // sqrtCK sqrtC_ge0.
Qed.
Lemma flippedE : flipped w W = W.
Proof.
apply/matrixP=> i j; rewrite mxE; have H := w_ge0 j.
have -> : 'Re (w 0 j) = w 0 j by apply/Creal_ReP; rewrite ger0_real.
by rewrite le_gtF.
Qed.
Lemma WTW i j : w 0 i != 0 -> (W^T *m W) i j = (i == j)%:R.
Proof.
move=> Hi; case: HG=> -[E1 E2] R _ Ho; rewrite -/w -/W in E1 E2 R Ho.
have WE : adj W = W^T by apply: real_adj.
case: eqP=> [<-|/eqP N].
  by rewrite -WE mxE -(E2 i); apply: eq_bigr=> l _; rewrite adjE mulrC -normCK.
have [Ew|Nw] := eqVneq (w 0 i) (w 0 j); first by apply: Ho.
have E : w 0 i * (W^T *m W) i j = w 0 j * (W^T *m W) i j.
  have <- : (W^T *m (G *m W)) i j = w 0 j * (W^T *m W) i j by rewrite E1 mulmxA mul_mx_diag mxE mulrC.
  have -> : W^T *m (G *m W) = (G *m W)^T *m W by rewrite trmx_mul mulmxA; congr (_ *m _ *m _); rewrite /G trmx_mul trmxK.
  by rewrite E1 trmx_mul tr_diag_mx -mulmxA mul_diag_mx mxE.
apply/eqP; move/eqP: E; rewrite -subr_eq0 -mulrBl mulf_eq0 subr_eq0 (negbTE Nw) //.
Qed.

Let f := feat w W rk.
Let o := argsort_desc (svals w).
Lemma fs_le : (fs_r f <= k)%N. Proof. by rewrite -ltnS. Qed.
Let emb (j : 'I_(fs_r f)) : 'I_k := o (widen_ord fs_le j).
Lemma emb_inj : injective emb.
Proof. by move=> i j /argsort_inj [] /val_inj. Qed.
Lemma fs_QE i j : fs_Q f i j = W i (emb j).
Proof. rewrite mxE mxE flippedE; congr (W i (argsort_desc _ _)); exact: val_inj. Qed.
Lemma fs_sE j : fs_s f 0 j = svals w 0 (emb j).
Proof. by rewrite mxE mxE; congr (svals w 0 (argsort_desc _ _)); apply: val_inj. Qed.
Lemma fs_rE : fs_r f = minn (edmd_rank (\row_j svals w 0 (o j)) rk) k :> nat.
Proof. by rewrite inordK // ltnS geq_minr. Qed.
Notation sf := (fs_s f).
Lemma s_ge0 j : 0 <= sf 0 j. Proof. by rewrite fs_sE; have [] := svalsE (emb j). Qed.
Lemma s_sq j : sf 0 j ^+ 2 = w 0 (emb j). Proof. by rewrite fs_sE; have [] := svalsE (emb j). Qed.
Lemma s_nz j : (sf 0 j != 0) = (w 0 (emb j) != 0).
Proof. by rewrite -s_sq expf_eq0. Qed.
Lemma feat_G1 : G *m fs_Q f = fs_Q f *m (diag_mx sf *m diag_mx sf).
Proof.
case: HG=> -[E1 _] _ _ _; rewrite -/w -/W in E1.
rewrite mulmx_diag; apply/matrixP=> i j; rewrite mul_mx_diag [RHS]mxE [X in _ * X]mxE -expr2 s_sq fs_QE.
have /matrixP/(_ i (emb j)) := E1; rewrite mul_mx_diag [RHS]mxE => <-.
by rewrite mxE [RHS]mxE; apply: eq_bigr=> l _; rewrite fs_QE.
Qed.
Lemma feat_G3 : let D := diag_mx (\row_j (sf 0 j != 0)%:R : 'rV[C]_(fs_r f)) in D *m ((fs_Q f)^T *m fs_Q f) *m D = D.
Proof.
have key i j : ((fs_Q f)^T *m fs_Q f) i j = (W^T *m W) (emb i) (emb j).
  by rewrite mxE [RHS]mxE; apply: eq_bigr=> l _; rewrite [(fs_Q f)^T _ _]mxE [W^T _ _]mxE !fs_QE.
have H i j : sf 0 i != 0 -> (W^T *m W) (emb i) (emb j) = (i == j)%:R.
  by move=> Hi; rewrite WTW -?s_nz // (inj_eq emb_inj).
move: ((fs_Q f)^T *m fs_Q f) sf key H => N s0 key H /=.
apply/matrixP=> i j; rewrite mul_mx_diag mul_diag_mx !mxE key.
case Ei: (s0 0 i != 0); last by rewrite !mul0r mul0rn.
rewrite H //; case: eqP=> [<-|_]; first by rewrite Ei !mulr1.
by rewrite mulr0 mul0r.
Qed.
Lemma feat_desc (i j : 'I_(fs_r f)) : (i <= j)%N -> sf 0 j <= sf 0 i.
Proof. by move=> Hij; rewrite !fs_sE /emb; apply: argsort_sorted=> // l; have [] := svalsE l. Qed.
Lemma feat_orth (i j : 'I_(fs_r f)) : i != j -> sf 0 i != 0 -> ((fs_Q f)^T *m fs_Q f) i j = 0.
Proof.
move=> Nij; rewrite s_nz => Hi.
have -> : ((fs_Q f)^T *m fs_Q f) i j = (W^T *m W) (emb i) (emb j).
  by rewrite mxE [RHS]mxE; apply: eq_bigr=> l _; rewrite [(fs_Q f)^T _ _]mxE [W^T _ _]mxE !fs_QE.
by rewrite WTW // (inj_eq emb_inj) (negbTE Nij).
Qed.
Lemma feat_real : real_mx (fs_Q f).
Proof. by case: HG=> _ /real_mxP R _ _; apply/real_mxP=> i j; rewrite fs_QE. Qed.

(** the eigenvalues that were cut are zero *)
Lemma rank_cut (j : 'I_k) : (\rank G <= fs_r f)%N -> (fs_r f <= j)%N -> w 0 (o j) = 0.
Proof.
case: HG=> -[E1 _] _ U _ Hr Hj; rewrite -/w -/W in E1 U.
pose s' : 'rV[C]_k := \row_i svals w 0 (o i).
have Hs i : 0 <= s' 0 i by rewrite mxE; have [] := svalsE (o i).
have := @rank_desc _ _ s' Hs _ j; rewrite (_ : (j < _)%N = false); last first.
  apply/negbTE; rewrite -leqNgt; apply: leq_trans Hj; apply: leq_trans Hr.
  have -> : \rank G = \rank (diag_mx w).
    have Hf : row_free W by rewrite row_free_unit.
    have Hl : row_full W by rewrite row_full_unit.
    by rewrite -(mxrankMfree G Hf) E1 (eqmxMfull _ Hl).
  pose sg := perm (@argsort_inj _ (svals w)).
  have Es : diag_mx s' = row_perm sg (col_perm sg (diag_mx (svals w))).
    apply/matrixP=> a b; rewrite mxE [RHS]mxE [RHS]mxE [RHS]mxE !permE (inj_eq (@argsort_inj _ (svals w))) mxE.
    by [].
  rewrite Es row_permE col_permE.
  apply: leq_trans (mxrankM_maxr _ _) _; apply: leq_trans (mxrankM_maxl _ _) _.
  have -> : diag_mx (svals w) = diag_mx w *m diag_mx (recip (svals w)).
    rewrite mulmx_diag; congr diag_mx; apply/rowP=> i; rewrite mxE [X in _ * X]mxE.
    have [<- _] := svalsE i; have [->|N] := eqVneq (svals w 0 i) 0; first by rewrite invr0 mulr0.
    by rewrite expr2 mulfK.
  exact: mxrankM_maxl.
move=> H; have {}H : (svals w 0 (o j) != 0) = false.
  have Ej : s' 0 j = svals w 0 (o j) by rewrite mxE.
  rewrite -Ej -H // => a b Hab.
  by rewrite mxE [X in _ <= X]mxE; apply: argsort_sorted=> // i; have [] := svalsE i.
by have [<- _] := svalsE (o j); move/negbFE/eqP: H => ->; rewrite expr0n.
Qed.

Lemma feat_G4 : (\rank G <= fs_r f)%N -> 
  exists c, Phi = fs_Q f *m diag_mx (\row_j (sf 0 j != 0)%:R : 'rV[C]_(fs_r f)) *m c.
Proof.
move=> Hr; case: HG=> -[E1 _] _ U _; rewrite -/w -/W in E1 U.
have [P1 _ _ P4] := ginv_ok Phi.
have EPhi : Phi = W *m diag_mx w *m (invmx W *m adj (ginv Phi)).
  rewrite -E1 -(mulmxA G) (mulmxA W) mulmxV // mul1mx /G -real_adj // -mulmxA -adjM P4 mulmxA //.
set T := invmx W *m _ in EPhi; exists (\matrix_(j, l) (w 0 (emb j) * T (emb j) l)).
apply/matrixP=> i l; rewrite {1}EPhi mul_mx_diag mxE.
transitivity (\sum_j W i (emb j) * (w 0 (emb j) * T (emb j) l)); last first.
  rewrite [RHS]mxE; apply: eq_bigr=> j _.
  rewrite mul_mx_diag mxE fs_QE [X in _ = _ * X]mxE [X in _ = _ * X * _]mxE s_nz -!mulrA; congr (_ * _).
  by case: eqP=> [->|_]; rewrite ?mul0r ?mul1r.
under [LHS]eq_bigr do rewrite mxE.
rewrite (reindex_inj (@argsort_inj _ (svals w))) [LHS]/= -/o.
transitivity (\sum_(j < k | (j < fs_r f)%N) W i (o j) * w 0 (o j) * T (o j) l).
  rewrite [RHS]big_mkcond; apply: eq_bigr=> j _; case: ifP=> // /negbT; rewrite -leqNgt => Hj.
  by rewrite (rank_cut Hr Hj) mulr0 mul0r.
by rewrite (big_ord_narrow fs_le); apply: eq_bigr=> j _; rewrite -/(emb j) mulrA.
Qed.
(** the energies of the kept singular values and of all *)
Lemma trG : \tr G = \sum_j svals w 0 (o j) ^+ 2.
Proof.
case: HG=> -[E1 _] _ U _; rewrite -/w -/W in E1 U.
have -> : G = W *m diag_mx w *m invmx W by rewrite -E1 -mulmxA mulmxV // mulmx1.
rewrite mxtrace_mulC mulmxA mulVmx // mul1mx mxtrace_diag.
rewrite (reindex_inj (@argsort_inj _ (svals w))) [LHS]/= -/o.
by apply: eq_bigr=> j _; have [-> _] := svalsE (o j).
Qed.
Lemma sum_kept r' : (r' <= fs_r f)%N -> \sum_(j < fs_r f | (j < r')%N) sf 0 j ^+ 2 = \sum_(j < k | (j < r')%N) svals w 0 (o j) ^+ 2.
Proof.
move=> H; rewrite (big_ord_narrow H) (big_ord_narrow (leq_trans H fs_le)); apply: eq_bigr=> j _.
by rewrite fs_sE; congr (svals w 0 (o _) ^+ 2); apply: val_inj.
Qed.
Lemma feat_rank : match rk with
  | Model_Utils.RInt (Zpos a) => fs_r f = minn (BinPos.Pos.to_nat a) k :> nat
  | Model_Utils.RInt _ => fs_r f = k :> nat
  | Model_Utils.RNum (Qmake (Zpos a) b) => 
      if (BinPos.Pos.to_nat a < BinPos.Pos.to_nat b)%N then
        let v := (BinPos.Pos.to_nat a)%:R / (BinPos.Pos.to_nat b)%:R in \tr G != 0 ->
        v * \tr G <= \sum_j sf 0 j ^+ 2 /\ forall r', (r' < fs_r f)%N -> \sum_(j < fs_r f | (j < r')%N) sf 0 j ^+ 2 < v * \tr G
      else fs_r f = k :> nat
  | Model_Utils.RNum _ => fs_r f = k :> nat
  end.
Proof.
have E := fs_rE; move: E sum_kept; rewrite trG; move: (sf); move: (fs_r f)=> r s E SK.
rewrite /edmd_rank in E; case: rk E=> [[|a|a]|[[|a|a] b]] E.
- by rewrite E minnn.
- by rewrite E -minnA minnn.
- by rewrite E minnn.
- by move: E; rewrite [X in X && _](_ : _ = false) // /= minnn.
- have E0 : Model_Utils.Qltb (inject_Z Z0) (Qmake (Zpos a) b) = true by apply/Proofs_Utils.Qltb_lt.
  have E1 : Model_Utils.Qltb (Qmake (Zpos a) b) (inject_Z (Zpos xH)) = (BinPos.Pos.to_nat a < BinPos.Pos.to_nat b)%N.
    apply/idP/idP=> [/Proofs_Utils.Qltb_lt|].
      rewrite /Qlt /= BinPos.Pos.mul_1_r => H; apply/ssrnat.ltP.
      by apply/(Pnat.Pos2Nat.inj_lt a b).
    move/ssrnat.ltP/(Pnat.Pos2Nat.inj_lt a b) => H; apply/Proofs_Utils.Qltb_lt.
    by rewrite /Qlt /= BinPos.Pos.mul_1_r.
  move: E; rewrite E0 E1 [true && _]/=; case: ifP=> [Hab E|_ ->]; last by rewrite minnn.
  set v := _ / _; rewrite [let _ := _ in _]/= => Ht.
  have Pb : 0 < (BinPos.Pos.to_nat b)%:R :> C by rewrite ltr0n; apply: leq_ltn_trans Hab.
  have Pv : 0 < v by rewrite divr_gt0 // ltr0n; apply/ssrnat.ltP; exact: Pnat.Pos2Nat.is_pos.
  have Pv1 : v < 1 by rewrite ltr_pdivr_mulr // mul1r ltr_nat.
  pose s' : 'rV[C]_k := \row_j svals w 0 (o j).
  have Hs j : 0 <= s' 0 j by rewrite mxE; have [] := svalsE (o j).
  have SE j : s' 0 j = svals w 0 (o j) by rewrite mxE.
  have ET : \sum_j svals w 0 (o j) ^+ 2 = \sum_j s' 0 j ^+ 2 by apply: eq_bigr=> j _; rewrite SE.
  have ES r' : \sum_(j < k | (j < r')%N) svals w 0 (o j) ^+ 2 = \sum_(j < k | (j < r')%N) s' 0 j ^+ 2 by apply: eq_bigr=> j _; rewrite SE.
  have Ht' := Ht; rewrite ET in Ht'.
  have RL := rank_le Hs Pv1 Ht'; move/minn_idPl: (RL) => RL'.
  have {}E : r = (searchsorted (cumsum (energies s')) v).+1 :> nat by rewrite -RL'.
  rewrite ET; split.
    have := energy_reached Hs Pv Pv1 Ht'; rewrite -E -ES -SK //.
    by rewrite [X in _ <= X -> _](eq_bigl (fun _ => true)) // => j; rewrite ltn_ord.
  by move=> r' Hr'; rewrite SK ?ES; [apply: (energy_minimal Hs Pv Pv1 Ht'); rewrite -E|exact: ltnW].
- by move: E; rewrite [X in X && _](_ : _ = false) // /= minnn.
Qed.
End Feature.

Lemma pinv_diag_recip k (s : 'rV[C]_k) : (forall j, 0 <= s 0 j) -> pinv_ok np (diag_mx s) ->
  np_pinv np (diag_mx s) = diag_mx (\row_j (s 0 j)^-1).
Proof.
move=> Hs HP; apply: (pinv_unique HP); split; rewrite ?mulmx_diag.
- by congr diag_mx; apply/rowP=> j; rewrite !mxE; have [->|N] := eqVneq (s 0 j) 0; rewrite ?mul0r // mulfV // mul1r.
- by congr diag_mx; apply/rowP=> j; rewrite !mxE; have [->|N] := eqVneq (s 0 j) 0; rewrite ?invr0 ?mul0r // mulVf // mul1r.
- rewrite adj_diag; congr diag_mx; apply/rowP=> j; rewrite !mxE conj_Creal //.
  by apply: ger0_real; rewrite mulr_ge0 ?invr_ge0.
- rewrite adj_diag; congr diag_mx; apply/rowP=> j; rewrite !mxE conj_Creal //.
  by apply: ger0_real; rewrite mulr_ge0 ?invr_ge0.
Qed.

Lemma mask_selects r (P : pred 'I_r) : selects P (fun j : 'I_#|P| => enum_val j).
Proof.
split; last first.
  move=> l; split=> [Hl|[j <-]]; last exact: (enum_valP j).
  by exists (enum_rank_in Hl l); rewrite enum_rankK_in.
move=> i j Hij; rewrite /enum_val.
have S : sorted ltn (map val (enum P)).
  apply: (subseq_sorted ltn_trans (s2 := map val (enum 'I_r))).
    by apply: map_subseq; rewrite enumT; exact: filter_subseq.
  by rewrite val_enum_ord iota_ltn_sorted.
have Hi : (i < size (enum P))%N by rewrite -cardE ltn_ord.
have Hj : (j < size (enum P))%N by rewrite -cardE ltn_ord.
have := sorted_ltn_nth ltn_trans 0%N S; move/(_ i j); rewrite !inE size_map => /(_ Hi Hj Hij).
by rewrite !(nth_map (enum_default i)) // [X in (_ < val X)%N -> _](set_nth_default (enum_default j)).
Qed.

(** the linear kernel, any pairs *)
Section LinCore.
Variables (m n r : nat) (G : 'M[C]_m) (Q : 'M[C]_(m, r)) (s : 'rV[C]_r) (X Y : 'M[C]_(n, m)) (P : 'M[C]_(m, n)).
Variables (Sp D K V : 'M[C]_r) (R M : 'M[C]_(n, r)) (w : 'rV[C]_r).
Hypothesis ES : Sp = diag_mx (\row_j (s 0 j)^-1).
Hypothesis ED : D = diag_mx (\row_j (s 0 j != 0)%:R : 'rV[C]_r).
Hypothesis H1 : G *m Q = Q *m (diag_mx s *m diag_mx s).
Hypothesis Gs : G^T = G.
Hypothesis H3 : D *m (Q^T *m Q) *m D = D.
Hypothesis GX : G = X^T *m X.
Hypothesis HP : is_pinv X P.
Hypothesis (RX : real_mx X) (RQ : real_mx Q) (Rs : forall j, 0 <= s 0 j).
Hypothesis ER : R = X *m Q *m Sp.
Hypothesis EK : K = Sp *m Q^T *m (Y^T *m X) *m Q *m Sp.
Hypothesis KV : K *m V = V *m diag_mx w.
Hypothesis HV : V \in unitmx.
Hypothesis EM : M = R *m (invmx V)^T.
Lemma lin_PXQ : P *m X *m (Q *m Sp) = Q *m Sp.
Proof.
have EQ : Q *m Sp = X^T *m (X *m (Q *m (Sp *m Sp *m Sp))).
  rewrite 2!mulmxA -GX H1 ES -mulmxA; congr (_ *m _); rewrite !mulmx_diag; congr diag_mx.
  apply/rowP=> j; rewrite !mxE; case: (eqVneq (s 0 j) 0) => [->|H]; first by rewrite !invr0 !mulr0.
  by rewrite !mulrA mulfK // divff // mul1r.
have [P1 _ _ P4] := HP.
by rewrite EQ mulmxA; congr (_ *m _); rewrite -(real_adj RX) -P4 -adjM mulmxA P1.
Qed.
Lemma lin_RTR : R^T *m R = D.
Proof. 
have GX' : G = X^T *m (X^T)^T by rewrite trmxK.
have H3' := H3; rewrite ED in H3'.
by have := RTR H1 H3' GX'; rewrite trmxK -ES -ER -ED.
Qed.
Lemma lin_KE : K = R^T *m (Y *m P)^T *m R.
Proof.
have ST : Sp^T = Sp by rewrite ES tr_diag_mx.
have E := congr1 trmx lin_PXQ; rewrite !trmx_mul ST in E.
by rewrite EK ER !trmx_mul ST !mulmxA; rewrite -(mulmxA (Sp *m Q^T) X^T P^T) E ?mulmxA.
Qed.
Lemma lin_DK : D *m K^T = K^T.
Proof.
have ST : Sp^T = Sp by rewrite ES tr_diag_mx.
have DS : D *m Sp = Sp by rewrite ED ES DSp.
by rewrite EK !trmx_mul ST !mulmxA DS.
Qed.
Lemma lin_nz j : w 0 j != 0 -> col j M != 0.
Proof. exact: (mode_nz lin_RTR lin_DK KV HV EM). Qed.
Hypothesis H4 : exists c, X^T = Q *m D *m c.
Lemma lin_F2 a (z : 'M[C]_(m, a)) : R *m R^T *m (X *m z) = X *m z.
Proof.
have GX' : G = X^T *m (X^T)^T by rewrite trmxK.
have H3' := H3; rewrite ED in H3'; have H4' := H4; rewrite ED in H4'.
by have := RRT H1 Gs H3' GX' H4' z; rewrite trmxK -ES -ER.
Qed.
Lemma lin_XP : X *m P = R *m R^T.
Proof.
have [P1 _ P3 _] := HP.
have E1 : R *m R^T *m (X *m P) = X *m P by exact: lin_F2.
have E2 : X *m P *m R = R by rewrite ER -(mulmxA X Q) (mulmxA _ X) P1.
have RR : real_mx R.
  apply/real_mxP=> i j; rewrite ER ES mul_mx_diag mxE rpredM //; last by rewrite mxE rpredV ger0_real.
  by rewrite mxE rpred_sum // => l _; rewrite rpredM //; [exact: (real_mxP _ RX)|exact: (real_mxP _ RQ)].
have E3 : adj (R *m R^T) = R *m R^T.
  by rewrite adjM -(real_adj RR) adjK.
by rewrite -P3 -E1 adjM P3 E3 mulmxA E2.
Qed.
Lemma lin_eig : X *m P *m Y *m P *m M = M *m diag_mx w.
Proof. by have := mode_eigen lin_KE KV HV EM; rewrite -lin_XP !mulmxA. Qed.
Lemma lin_range : X *m P *m M = M.
Proof. by have [P1 _ _ _] := HP; rewrite EM ER !mulmxA P1. Qed.
End LinCore.

Lemma mask_take n r (Pr : pred 'I_r) (A : 'M[C]_n) (M : 'M[C]_(n, r)) w : A *m M = M *m diag_mx w ->
  A *m mask_modes Pr M = mask_modes Pr M *m diag_mx (mask_eigs Pr w).
Proof.
move=> E; apply/matrixP=> i j; rewrite mul_mx_diag [RHS]mxE [X in _ = X * _]mxE [X in _ = _ * X]mxE.
have /matrixP/(_ i (enum_val j)) := E; rewrite mul_mx_diag [RHS]mxE => <-.
by rewrite mxE [RHS]mxE; apply: eq_bigr=> l _; rewrite [mask_modes _ _ _ _]mxE.
Qed.
Lemma mask_fix n r (Pr : pred 'I_r) (A : 'M[C]_n) (M : 'M[C]_(n, r)) : A *m M = M -> A *m mask_modes Pr M = mask_modes Pr M.
Proof.
move=> /matrixP E; apply/matrixP=> i j; rewrite mxE [RHS]mxE -E mxE.
by apply: eq_bigr=> l _; rewrite [mask_modes _ _ _ _]mxE.
Qed.
End Prog.
