(** * C33: the matrix manifolds of physics-informed DMD *)
From mathcomp Require Import all_ssreflect all_algebra all_field.
From Verif Require Import Py LinAlg Witness Model_Operator Spec_Operator Proofs_OpCore Proofs_Operator Proofs_Operator2 Proofs_Recovery Examples_Operator.
From Verif Require Import Model_PiDMD Spec_PiDMD Proofs_PiAlg Proofs_PiDMD Proofs_PiDft Proofs_PiCirc Proofs_PiToep.
From Verif Require Model_Utils.
Set Implicit Arguments. Unset Strict Implicit. Unset Printing Implicit Defensive.
Import Order.TTheory GRing.Theory Num.Theory.
Local Open Scope ring_scope.

Section C33.
Variable C : numClosedFieldType.
Implicit Types (np : numpy C) (pn : pi_numpy C).

(** The operator A kept by the fit is the best fit with property P *)
Definition fits_best n m (P : 'M[C]_n -> Prop) (X Y : 'M[C]_(n, m)) (o : pi_out C n m) : Prop :=
  exists2 A, po_A o = Some A & best P X Y A.
(** ... when A is not kept: eigenvalues and modes are eigenpairs of the best fit *)
Definition fits_best_modes n m (P : 'M[C]_n -> Prop) (X Y : 'M[C]_(n, m)) (o : pi_out C n m) : Prop :=
  exists2 A, A *m po_modes o = po_modes o *m diag_mx (po_eigs o) & best P X Y A.

Lemma op_PA np pn cfg n m (X Y : 'M[C]_(n, m)) A o P :
  compute_procrustes np pn cfg X Y = Ok (PA A) -> best P X Y A -> pi_compute_operator np pn cfg X Y = Ok o -> fits_best P X Y o.
Proof. by move=> E b; rewrite /pi_compute_operator E /= => -[<-]; exists A. Qed.
Lemma op_PEigs np pn cfg n m (X Y : 'M[C]_(n, m)) A k (e : 'rV[C]_k) Phi o P :
  compute_procrustes np pn cfg X Y = Ok (PEigs e Phi) -> A *m Phi = Phi *m diag_mx e -> best P X Y A ->
  pi_compute_operator np pn cfg X Y = Ok o -> fits_best_modes P X Y o.
Proof. by move=> E h b; rewrite /pi_compute_operator E /= => -[<-]; exists A. Qed.

(** ** Reduced manifolds: the operator on the kept singular vectors U *)

(** unitary: the reduced operator is the closest unitary matrix to the projected data *)
Theorem C33_unitary np pn cfg n m (X Y : 'M[C]_(n, m)) o :
  pi_man cfg = MUnitary -> pi_compute_operator np pn cfg X Y = Ok o ->
  svd_ok np (adj (po_U o) *m Y *m adj (adj (po_U o) *m X)) ->
  best (@unitary C _) (adj (po_U o) *m X) (adj (po_U o) *m Y) (po_Atilde o).
Proof.
rewrite /pi_compute_operator /compute_procrustes => -> /= [<-] /=.
rewrite /svd_ok /unitary_atilde; case: (np_svd np (_ *m adj (_ *m X))) => [[U s] Vh] /=.
exact: procrustes_best.
Qed.

(** symmetric and skew-symmetric: for all data the reduced operator has the promised symmetry *)
Theorem C33_symmetric_structure np pn cfg n m (X Y : 'M[C]_(n, m)) o :
  pi_man cfg = MSymmetric -> pi_compute_operator np pn cfg X Y = Ok o -> hermitian (po_Atilde o).
Proof.
rewrite /pi_compute_operator /compute_procrustes => -> /= [<-] /=; exact: sym_hermitian.
Qed.
Theorem C33_skew_structure np pn cfg n m (X Y : 'M[C]_(n, m)) o :
  pi_man cfg = MSkew -> pi_compute_operator np pn cfg X Y = Ok o -> skew_hermitian (po_Atilde o).
Proof.
rewrite /pi_compute_operator /compute_procrustes => -> /= [<-] /=; exact: skew_skew.
Qed.
(** ... and is the best such fit of the projected data; for the symmetric manifold when data and
    decomposition are real *)
Theorem C33_symmetric np pn cfg n m (X Y : 'M[C]_(n, m)) o :
  pi_man cfg = MSymmetric -> pi_compute_operator np pn cfg X Y = Ok o -> svd_ok np X ->
  (forall j, po_s o 0 j != 0) -> real_mx Y -> real_mx (np_svd np X).1.1 -> real_mx (np_svd np X).2 ->
  best (@hermitian C _) (adj (po_U o) *m X) (adj (po_U o) *m Y) (po_Atilde o).
Proof.
rewrite /pi_compute_operator /compute_procrustes => -> /= [<-] /= HS nz rY rU rV.
by apply: sym_best => //; apply: real_sym_C.
Qed.
Theorem C33_skew np pn cfg n m (X Y : 'M[C]_(n, m)) o :
  pi_man cfg = MSkew -> pi_compute_operator np pn cfg X Y = Ok o -> svd_ok np X ->
  (forall j, po_s o 0 j != 0) ->
  best (@skew_hermitian C _) (adj (po_U o) *m X) (adj (po_U o) *m Y) (po_Atilde o).
Proof.
by rewrite /pi_compute_operator /compute_procrustes => -> /= [<-] /= HS nz; apply: skew_best.
Qed.

(** With compute_A the stored A of a reduced manifold is U Atilde U^h, and modes and eigenvalues are its eigenpairs *)
Lemma pinv_factor n r (U : 'M[C]_(n, r)) (W : 'M[C]_r) : adj U *m U = 1%:M -> W \in unitmx ->
  is_pinv (U *m W) (invmx W *m adj U).
Proof.
move=> UU Wu; have PM : invmx W *m adj U *m (U *m W) = 1%:M.
  by rewrite -mulmxA (mulmxA (adj U)) UU mul1mx mulVmx.
have MP : U *m W *m (invmx W *m adj U) = U *m adj U by rewrite -mulmxA (mulmxA W) mulmxV // mul1mx.
split; [by rewrite -mulmxA PM mulmx1|by rewrite PM mul1mx| |by rewrite PM adj1].
by rewrite MP adjM adjK.
Qed.
Definition reduced_manifold (M : manifold) : bool :=
  match M with MUnitary | MSymmetric | MSkew => true | _ => false end.
Theorem C33_reduced_A np pn cfg n m (X Y : 'M[C]_(n, m)) o :
  reduced_manifold (pi_man cfg) -> pi_A cfg -> pi_compute_operator np pn cfg X Y = Ok o ->
  svd_ok np X -> eig_ok np (po_Atilde o) -> (np_eig np (po_Atilde o)).2 \in unitmx -> pinv_ok np (po_modes o) ->
  po_A o = Some (po_U o *m po_Atilde o *m adj (po_U o)) /\
  po_U o *m po_Atilde o *m adj (po_U o) *m po_modes o = po_modes o *m diag_mx (po_eigs o).
Proof.
move=> red hA H HS.
have [a E] : exists a, compute_procrustes np pn cfg X Y = Ok (PAtilde a).
  by move: red; rewrite /compute_procrustes; case: (pi_man cfg) => // _; eexists.
move: H; rewrite /pi_compute_operator E /= hA => -[<-] /= [He _] Wu Hp.
have UU : adj (take_cols (np_svd np X).1.1 (rank_of np X (pi_rank cfg))) *m
          take_cols (np_svd np X).1.1 (rank_of np X (pi_rank cfg)) = 1%:M.
  by rewrite take_colsE; exact: (trunc_UU (leq_ord _) HS).
have aE : a = (np_eig np a).2 *m diag_mx (np_eig np a).1 *m invmx (np_eig np a).2 by rewrite -He mulmxK.
rewrite (pinv_unique Hp (pinv_factor UU Wu)); split.
  congr Some; rewrite [in RHS]aE !mulmxA //.
by rewrite -!mulmxA (mulmxA (adj _)) UU mul1mx He !mulmxA.
Qed.

(** ** Full manifolds: among all matrices with the structure none is closer to Y = A X *)

(** Whatever full manifold was used: modes and eigenvalues are eigenpairs of the stored A *)
Theorem C33_full_eigenpairs np pn cfg n m (X Y : 'M[C]_(n, m)) o A :
  ~~ reduced_manifold (pi_man cfg) -> pi_A cfg -> pi_compute_operator np pn cfg X Y = Ok o ->
  po_A o = Some A -> eig_ok np A -> A *m po_modes o = po_modes o *m diag_mx (po_eigs o).
Proof.
move=> red hA; rewrite /pi_compute_operator.
case E : (compute_procrustes np pn cfg X Y) => [p|] //= [<-].
case: p E => [a|A'|k e Phi] E //=; last by move=> [<-] [].
move: E red; rewrite /compute_procrustes /check_A hA /diagonal /circulant /circ_exclude /block_circulant /bccb.
case: (pi_man cfg) => //=.
- by case: (band_widths _ _) => [w|].
- by move=> c; case: ifP.
- by case: (block_shape _) => [q|] //=; case: ifP.
- by case: (block_shape _) => [q|] //=; case: ifP.
- by move=> c; case: (block_shape _) => [q|] //=; case: ifP => // _; case: ifP.
Qed.

(** triangular; X must have independent rows (at least as many snapshots as measurements) *)
Theorem C33_uppertriangular np pn cfg n m (X Y : 'M[C]_(n, m)) o :
  pi_man cfg = MUpper -> pi_compute_operator np pn cfg X Y = Ok o -> row_free X -> rq_ok pn X ->
  lstsq_mx_ok np (pi_rq pn X).1^T (triu (Y *m adj (pi_rq pn X).2))^T ->
  fits_best (@upper_triangular C n) X Y o.
Proof.
move=> E H fX hq hl; have hA : pi_A cfg.
  by move: H; rewrite /pi_compute_operator /compute_procrustes E /check_A; case: (pi_A cfg).
apply: op_PA H; first by rewrite /compute_procrustes E /check_A hA.
exact: uppertriangular_best.
Qed.
Theorem C33_lowertriangular np pn cfg n m (X Y : 'M[C]_(n, m)) o :
  pi_man cfg = MLower -> pi_compute_operator np pn cfg X Y = Ok o -> row_free X -> rq_ok pn (flipud X) ->
  lstsq_mx_ok np (pi_rq pn (flipud X)).1^T (triu (flipud Y *m adj (pi_rq pn (flipud X)).2))^T ->
  fits_best (@lower_triangular C n) X Y o.
Proof.
move=> E H fX hq hl; have hA : pi_A cfg.
  by move: H; rewrite /pi_compute_operator /compute_procrustes E /check_A; case: (pi_A cfg).
apply: op_PA H; first by rewrite /compute_procrustes E /check_A hA.
apply: lower_best; apply: uppertriangular_best => //.
have FE : flipud X = flip_eye C n true *m X.
  apply/matrixP=> i j; rewrite !mxE (bigD1 (rev_ord i)) //= mxE rev_ordK eqxx mul1r big1 ?addr0 // => k ne.
  by rewrite mxE -(inj_eq rev_ord_inj) rev_ordK eq_sym (negbTE ne) mul0r.
have U : flip_eye C n true \in unitmx by case: (mulmx1_unit (flipK C n true)).
by rewrite FE /row_free (eqmxMfull _ _) ?row_full_unit.
Qed.

(** diagonal and banded: widths decided by manifold_opt *)
Theorem C33_banded np pn cfg n m (X Y : 'M[C]_(n, m)) o w :
  pi_man cfg = MDiagonal -> band_widths n (pi_opt cfg) = Ok w -> pi_compute_operator np pn cfg X Y = Ok o ->
  (forall i, lstsq_ok np (row_slice X (band_l1 (w i) i) (band_l2 n (w i) i))^T (row i Y)^T) ->
  if pi_A cfg then fits_best (banded w) X Y o
  else eigs_ok pn (rank_of np X (pi_rank cfg)) (band_matrix np w X Y) -> fits_best_modes (banded w) X Y o.
Proof.
move=> E W H hl; have b := band_matrix_best hl.
have P : compute_procrustes np pn cfg X Y = diagonal np pn (rank_of np X (pi_rank cfg)) X Y (pi_opt cfg) (pi_A cfg).
  by rewrite /compute_procrustes E.
move: P; rewrite /diagonal W /=; case: ifP => hA P; first exact: op_PA P b H.
by move=> he; apply: op_PEigs P _ b H.
Qed.

(** Toeplitz and Hankel *)
Theorem C33_toeplitz np pn cfg n m (X Y : 'M[C]_(n, m)) o :
  pi_man cfg = MToeplitz -> pi_compute_operator np pn cfg X Y = Ok o -> root_ok pn (n + n) ->
  lstsq_ok np (drop_last (toep_L pn X))^T (drop_last_v (toep_y pn X Y)) ->
  fits_best (@is_toeplitz C n) X Y o.
Proof.
move=> E H hr hl; have hA : pi_A cfg.
  by move: H; rewrite /pi_compute_operator /compute_procrustes E /check_A; case: (pi_A cfg).
apply: op_PA H; first by rewrite /compute_procrustes E /check_A hA.
by rewrite toeplitzE // mul1mx mulmx1; apply: toeplitz_best.
Qed.
Theorem C33_hankel np pn cfg n m (X Y : 'M[C]_(n, m)) o :
  pi_man cfg = MHankel -> pi_compute_operator np pn cfg X Y = Ok o -> root_ok pn (n + n) ->
  let JX := flip_eye C n true *m X in
  lstsq_ok np (drop_last (toep_L pn JX))^T (drop_last_v (toep_y pn JX Y)) ->
  fits_best (@is_hankel C n) X Y o.
Proof.
move=> E H hr JX hl; have hA : pi_A cfg.
  by move: H; rewrite /pi_compute_operator /compute_procrustes E /check_A; case: (pi_A cfg).
apply: op_PA H; first by rewrite /compute_procrustes E /check_A hA.
exact: hankel_best.
Qed.

(** circulant and its unitary, symmetric and skew-symmetric variants, for real X none of whose
    Fourier rows vanish, when every eigenvalue is kept (rank = number of measurements) *)
Lemma keep_all pn n (res : 'rV[C]_n) r : r = n -> smallest_ok pn res (n - r) -> pi_smallest pn res (n - r) = set0.
Proof. by move=> -> [/eqP]; rewrite subnn cards_eq0 => /eqP. Qed.
Lemma keep_eig n k (A : 'M[C]_n) (M : 'M[C]_(n, k)) (e : 'rV[C]_k) (S : {set 'I_k}) :
  A *m M = M *m diag_mx e -> A *m keep_cols S M = keep_cols S M *m diag_mx (keep_cols S e).
Proof.
move=> H; apply/matrixP=> i j; have := congr1 (fun M : 'M_(n, k) => M i (enum_val j)) H.
rewrite !mul_mx_diag ![in X in X -> _]mxE ![in X in _ -> X]mxE => <-.
by apply: eq_bigr=> a _; rewrite mxE.
Qed.
Lemma circ_vecs pn n (e : 'rV[C]_n) : root_ok pn n ->
  adj (TF pn n) *m diag_mx e *m TF pn n *m (dft pn n *m 1%:M) = (dft pn n *m 1%:M) *m diag_mx e.
Proof.
move=> hr; rewrite mulmx1 (dftE hr); move: (TF_unitary hr).
move: (TF pn n) => T TT; rewrite -scalemxAr -[in RHS]scalemxAl; congr (_ *: _).
by rewrite -(mulmxA (adj T *m diag_mx e)) TT mulmx1.
Qed.
Theorem C33_circulant np pn cfg n m (X Y : 'M[C]_(n, m)) o c :
  pi_man cfg = MCirculant c -> pi_compute_operator np pn cfg X Y = Ok o -> root_ok pn n ->
  rank_of np X (pi_rank cfg) = n :> nat ->
  smallest_ok pn (importance (circ_fX pn X) (circ_fY pn Y)) (n - rank_of np X (pi_rank cfg)) ->
  real_mx X -> (forall l, row_norm2 (circ_fX pn X) l != 0) ->
  if pi_A cfg then fits_best (fun A => is_circulant A /\ opt_holds c A) X Y o
  else fits_best_modes (fun A => is_circulant A /\ opt_holds c A) X Y o.
Proof.
move=> E H hr rn hs rX nz; have b := circ_best Y hr c rX nz.
have P : compute_procrustes np pn cfg X Y =
    circulant pn (rank_of np X (pi_rank cfg)) X Y c (rank_of np X (pi_rank cfg)) (pi_A cfg).
  by rewrite /compute_procrustes E.
have r0 : (rank_of np X (pi_rank cfg) == 0%N :> nat) = false by rewrite rn (gtn_eqF (N_pos hr)).
move: P; rewrite /circulant /circ_exclude (keep_all rn hs) r0 /= zero_out0 circ_matrix //.
case: ifP => _ P; first exact: op_PA P b H.
by apply: op_PEigs P _ b H; apply: keep_eig; apply: circ_vecs.
Qed.

(** ... whatever the data and the rank: the operator is circulant, and symmetric / skew-symmetric when asked *)
Lemma admissible_out c n (S : {set 'I_n}) (e : 'rV[C]_n) l : c <> CUnitary -> admissible c (e 0 l) -> admissible c (zero_out S e 0 l).
Proof. by rewrite mxE; case: ifP => // _; case: c => //= _ _; rewrite rmorph0 ?oppr0. Qed.
Theorem C33_circulant_structure np pn cfg n m (X Y : 'M[C]_(n, m)) o c :
  pi_man cfg = MCirculant c -> pi_A cfg -> pi_compute_operator np pn cfg X Y = Ok o -> root_ok pn n ->
  exists2 A, po_A o = Some A & is_circulant A /\ (c <> CUnitary -> opt_holds c A).
Proof.
move=> E hA; rewrite /pi_compute_operator /compute_procrustes E hA /circulant /circ_exclude.
case: ifP => //= _ [<-] hr /=; rewrite circ_matrix //; eexists; [by []|split].
- exact: circ_is_circ.
- move=> nu; apply: diag_conj; first exact: TF_unitary.
  by move=> l; apply: admissible_out nu _; rewrite mxE; apply: opt_admissible.
Qed.
(** ... but with fewer eigenvalues than measurements circulant_unitary is never unitary *)
Lemma not_unitary n (T : 'M[C]_n) (e : 'rV[C]_n) l : T *m adj T = 1%:M -> e 0 l = 0 ->
  ~ unitary (adj T *m diag_mx e *m T).
Proof.
move=> TT e0 U.
have D : T *m (adj T *m diag_mx e *m T) *m adj T = diag_mx e.
  by rewrite !mulmxA TT mul1mx -!mulmxA TT mulmx1.
have off k l' : k != l' -> diag_mx e k l' = 0 by move=> ne; rewrite mxE (negbTE ne) mulr0n.
have [e' ee adm] := diag_adm_of (o := CUnitary) TT (esym D) off U.
have := adm l; have <- : e 0 l = e' 0 l.
  by have := congr1 (fun M : 'M_n => M l l) ee; rewrite !mxE eqxx !mulr1n.
by rewrite /= e0 normr0 => /eqP; rewrite eq_sym oner_eq0.
Qed.
Lemma some_excluded n (S : {set 'I_n}) r : (r < n)%N -> #|S| = (n - r)%N -> exists l, l \in S.
Proof. by move=> lt c; apply/card_gt0P; rewrite c subn_gt0. Qed.
Theorem C33_circulant_unitary_refuted np pn cfg n m (X Y : 'M[C]_(n, m)) o :
  pi_man cfg = MCirculant CUnitary -> pi_A cfg -> pi_compute_operator np pn cfg X Y = Ok o -> root_ok pn n ->
  (rank_of np X (pi_rank cfg) < n)%N ->
  smallest_ok pn (importance (circ_fX pn X) (circ_fY pn Y)) (n - rank_of np X (pi_rank cfg)) ->
  exists2 A, po_A o = Some A & ~ unitary A.
Proof.
move=> E hA; rewrite /pi_compute_operator /compute_procrustes E hA /circulant /circ_exclude.
case: ifP => //= _ [<-] hr lt [sc _] /=; rewrite circ_matrix //; eexists; [by []|].
have [l hl] := some_excluded lt sc.
by apply: (not_unitary (l := l)); [exact: TF_unitary|rewrite mxE hl].
Qed.

(** symmetric tridiagonal, for real data *)
Theorem C33_symtridiagonal np pn cfg n m (X Y : 'M[C]_(n, m)) o :
  pi_man cfg = MSymTri -> pi_compute_operator np pn cfg X Y = Ok o -> real_mx X -> real_mx Y ->
  lsqr_ok pn (re_mx (tri_T X)) (re_mx (tri_d X Y)) ->
  if pi_A cfg then fits_best (@sym_tridiagonal C n) X Y o
  else eigs_ok pn (rank_of np X (pi_rank cfg)) (tri_matrix (tri_c pn X Y)) -> fits_best_modes (@sym_tridiagonal C n) X Y o.
Proof.
move=> E H rX rY hl; have b := symtri_best rX rY hl.
have P : compute_procrustes np pn cfg X Y = Ok (symtridiagonal pn (rank_of np X (pi_rank cfg)) X Y (pi_A cfg)).
  by rewrite /compute_procrustes E.
move: P; rewrite /symtridiagonal; case: ifP => _ P; first exact: op_PA P b H.
by move=> he; apply: op_PEigs P _ b H.
Qed.
(** ... the structure needs only that the solver returns a real vector *)
Theorem C33_symtridiagonal_structure np pn cfg n m (X Y : 'M[C]_(n, m)) o :
  pi_man cfg = MSymTri -> pi_A cfg -> pi_compute_operator np pn cfg X Y = Ok o -> real_mx (tri_c pn X Y) ->
  exists2 A, po_A o = Some A & sym_tridiagonal A.
Proof.
move=> E hA; rewrite /pi_compute_operator /compute_procrustes E hA /= => -[<-] rc; eexists; [by []|exact: tri_matrix_ok].
Qed.

(** block circulant (BC) and block circulant with tridiagonal blocks (BCTB); manifold_opt = (p, q) *)
Theorem C33_block_circulant np pn cfg n m (X Y : 'M[C]_(n, m)) o p q (tri : bool) :
  pi_man cfg = (if tri then MBCTB else MBC) -> pi_opt cfg = MTuple [:: Posz p; Posz q] ->
  pi_compute_operator np pn cfg X Y = Ok o -> (0 < p)%N -> root_ok pn q ->
  (forall j, (j < q)%N -> bc_solves_ok np p tri (fftb_mx pn n p q *m X) (fftb_mx pn n p q *m Y) j) ->
  (p * q)%N = n /\ fits_best (fun A => is_block_circulant p q A /\ (tri -> tridiagonal_blocks p A)) X Y o.
Proof.
move=> E O H p0 hr hs.
have [hA npq P] : [/\ pi_A cfg, (p * q)%N = n & compute_procrustes np pn cfg X Y =
    Ok (PA (adj (fftb_mx pn n p q) *m block_diag n (bc_block np p tri (fftb_mx pn n p q *m X) (fftb_mx pn n p q *m Y)) *m fftb_mx pn n p q))].
  move: H; rewrite /pi_compute_operator /compute_procrustes E.
  by case: tri {hs E}; rewrite /check_A /block_circulant O; case: (pi_A cfg) => //=; case: eqP => //= npq _; rewrite bc_matrix.
by split=> //; apply: op_PA P _ H; apply: bc_best.
Qed.

(** block circulant with circulant blocks, and its variants *)
Theorem C33_bccb np pn cfg n m (X Y : 'M[C]_(n, m)) o p q c :
  pi_man cfg = MBCCB c -> pi_opt cfg = MTuple [:: Posz p; Posz q] ->
  pi_compute_operator np pn cfg X Y = Ok o -> root_ok pn p -> root_ok pn q ->
  rank_of np X (pi_rank cfg) = n :> nat ->
  let fX := fft2_mx pn n p q *m conj_mx X in let fY := fft2_mx pn n p q *m conj_mx Y in
  smallest_ok pn (importance fX fY) (n - rank_of np X (pi_rank cfg)) ->
  (forall l, row_norm2 fX l != 0) -> (forall l, lstsq_ok np (row l fX)^T (row l fY)^T) ->
  (p * q)%N = n /\ fits_best (fun A => is_bccb p q A /\ opt_holds c A) X Y o.
Proof.
move=> E O H hp hq rn fX fY hs nz hl.
have [hA npq P] : [/\ pi_A cfg, (p * q)%N = n & compute_procrustes np pn cfg X Y =
    Ok (PA (adj (TFF pn n p q) *m diag_mx (conj_mx (bccb_eigs np pn p q X Y c)) *m TFF pn n p q))].
  move: H; rewrite /pi_compute_operator /compute_procrustes E /check_A /bccb O; case: (pi_A cfg) => //=.
  by case: eqP => //= npq; case: ifP => //= _ _; rewrite (keep_all rn hs) zero_out0 (bccb_matrix hp hq).
by split=> //; apply: op_PA P _ H; apply: bccb_best.
Qed.
Theorem C33_bccb_structure np pn cfg n m (X Y : 'M[C]_(n, m)) o p q c :
  pi_man cfg = MBCCB c -> pi_opt cfg = MTuple [:: Posz p; Posz q] ->
  pi_compute_operator np pn cfg X Y = Ok o -> root_ok pn p -> root_ok pn q ->
  exists2 A, po_A o = Some A & is_bccb p q A.
Proof.
move=> E O; rewrite /pi_compute_operator /compute_procrustes E /check_A /bccb O; case: (pi_A cfg) => //=.
case: eqP => //= npq; case: ifP => //= _ [<-] hp hq; rewrite (bccb_matrix hp hq); eexists; [by []|exact: bccb_is].
Qed.
Theorem C33_bccb_unitary_refuted np pn cfg n m (X Y : 'M[C]_(n, m)) o p q :
  pi_man cfg = MBCCB CUnitary -> pi_opt cfg = MTuple [:: Posz p; Posz q] ->
  pi_compute_operator np pn cfg X Y = Ok o -> root_ok pn p -> root_ok pn q ->
  (rank_of np X (pi_rank cfg) < n)%N ->
  smallest_ok pn (importance (fft2_mx pn n p q *m conj_mx X) (fft2_mx pn n p q *m conj_mx Y)) (n - rank_of np X (pi_rank cfg)) ->
  exists2 A, po_A o = Some A & ~ unitary A.
Proof.
move=> E O; rewrite /pi_compute_operator /compute_procrustes E /check_A /bccb O; case: (pi_A cfg) => //=.
case: eqP => //= npq; case: ifP => //= _ [<-] hp hq lt [sc _]; rewrite (bccb_matrix hp hq); eexists; [by []|].
have [l hl] := some_excluded lt sc.
by apply: (not_unitary (l := l)); [exact: TFF_unitary|rewrite !mxE hl rmorph0].
Qed.

(** ** Refusals: ValueError, nothing computed *)
Definition needs_A (M : manifold) : bool :=
  match M with MUpper | MLower | MToeplitz | MHankel | MBC | MBCTB | MBCCB _ => true | _ => false end.
Definition block_manifold (M : manifold) : bool := match M with MBC | MBCTB | MBCCB _ => true | _ => false end.
Theorem C33_refused_without_A np pn cfg n m (X Y : 'M[C]_(n, m)) :
  needs_A (pi_man cfg) -> pi_A cfg = false -> pi_compute_operator np pn cfg X Y = Err ValueError.
Proof.
by move=> h hA; rewrite /pi_compute_operator /compute_procrustes /check_A hA; case: (pi_man cfg) h.
Qed.
Theorem C33_refused_unknown np pn cfg n m (X Y : 'M[C]_(n, m)) :
  pi_man cfg = MUnknown -> pi_compute_operator np pn cfg X Y = Err ValueError.
Proof. by move=> h; rewrite /pi_compute_operator /compute_procrustes h. Qed.
(** the shape of the blocks is missing, is not a pair, or does not multiply to the number of measurements *)
Theorem C33_refused_block_shape np pn cfg n m (X Y : 'M[C]_(n, m)) :
  block_manifold (pi_man cfg) -> (forall p q, pi_opt cfg = MTuple [:: Posz p; Posz q] -> (p * q)%N <> n) ->
  pi_compute_operator np pn cfg X Y = Err ValueError.
Proof.
move=> h no.
have B : block_shape (pi_opt cfg) = Err ValueError \/
         exists p q, block_shape (pi_opt cfg) = Ok (p, q) /\ (p * q != n)%N.
  move: no; rewrite /block_shape; case: (pi_opt cfg) => [|d|l|l|] no; try by left.
  case: l no => [|[p|p] [|[q|q] [|? ?]]] no; try by left.
  by right; exists p, q; split=> //; apply/eqP; apply: no.
rewrite /pi_compute_operator /compute_procrustes /check_A.
case: B => [->|[p [q [-> ne]]]]; first by case: (pi_man cfg) h => //; case: (pi_A cfg).
by case: (pi_man cfg) h => //; case: (pi_A cfg) => //=; rewrite /block_circulant /bccb ne.
Qed.
(** the widths of a banded matrix: a positive int, a pair of positive ints, or one positive pair per row *)
Definition good_widths n (o : man_opt) : Prop :=
  match o with
  | MNone => True
  | MInt d => 0 < d
  | MTuple l => exists a b : int, [/\ l = [:: a; b], 0 < a & 0 < b]
  | MArr l => size l = n /\ forall ab, ab \in l -> 0 < ab.1 /\ 0 < ab.2
  | MOther => False
  end.
Theorem C33_band_option np pn cfg n m (X Y : 'M[C]_(n, m)) : pi_man cfg = MDiagonal ->
  (good_widths n (pi_opt cfg) -> exists o, pi_compute_operator np pn cfg X Y = Ok o) /\
  (~ good_widths n (pi_opt cfg) -> pi_compute_operator np pn cfg X Y = Err ValueError).
Proof.
move=> E; rewrite /pi_compute_operator /compute_procrustes E /diagonal.
case: (pi_opt cfg) => [|d|l|l|] /=; last by split.
- by split=> [_|/(_ I)] //; case: ifP => _; eexists.
- by split=> [->|/negP/negbTE ->] //=; case: ifP => _; eexists.
- split=> [[a [b [-> a0 b0]]]|no] /=; first by rewrite a0 b0 /=; case: ifP => _; eexists.
  case: ifP => // /andP[sz al]; case: no; case: l sz al => [|a [|b [|? ?]]] //= _ /and3P[? ? _].
  by exists a, b.
- split=> [[sz H]|no] /=.
    rewrite sz eqxx (_ : all _ l) /=; first by case: ifP => _; eexists.
    by apply/allP=> ab /H[? ?]; apply/andP.
  case: ifP => // /andP[/eqP sz /allP al]; case: no; split=> // ab /al /andP //.
Qed.
(** PiDMD.A before a fit, or without compute_A *)
Theorem C33_get_A cfg n (stored : option 'M[C]_n) A :
  get_A cfg stored = Ok A <-> pi_A cfg /\ stored = Some A.
Proof.
rewrite /get_A; case: (pi_A cfg) => /=; last by split=> // -[].
by case: stored => [B|]; split=> //; [case=> ->|case=> _ [->]|case].
Qed.
End C33.

(** ** Concrete cases: X = identity, Y = swap of two coordinates (the swap lies in most of the manifolds) *)
Local Notation AC := algCnumClosedField.
Definition pi_delta n m : 'M[AC]_(n, m) := \matrix_(i, j) (i == j :> nat)%:R.
Definition pi_np : numpy AC := {|
  np_svd := fun n m X => (pi_delta _ _, const_mx 1, pi_delta _ _ *m X);
  np_rank := fun k _ _ _ _ => ord_max;
  np_eig := fun r A => (\row_j (-1) ^+ j, \matrix_(i, j) ((-1) ^+ (i * j) * c2));
  np_sqrtm := fun r M => M;
  np_norm := fun n m X => sqrtC (frob2 X);
  np_lstsq := fun n r M y => ginv M *m y;
  np_solve := fun r P q => invmx P *m q;
  np_pinv := fun n r M => ginv M;
  np_power := ex_power |}.
Definition pi_pn : pi_numpy AC := {|
  pi_rq := fun n m X => (pi_delta _ _, pi_delta _ _ *m X);
  pi_lsqr := fun n T d => re_mx (ginv T *m d);
  pi_eigs := fun n r A => (\row_j (-1) ^+ j, \matrix_(i, j) ((-1) ^+ (i * j) * c2));
  pi_smallest := fun n res k => [set i : 'I_n | (i < k)%N];
  pi_root := root_of |}.
Definition pi_X : 'M[AC]_2 := 1%:M.
Definition pi_all : Model_Utils.rank_arg := Model_Utils.RInt (BinNums.Zneg BinNums.xH).
Definition pi_conf M o a := PiCfg M o a pi_all.

Lemma pi_delta1 : pi_delta 2 2 = 1%:M.
Proof. by apply/matrixP=> i j; rewrite !mxE. Qed.
Lemma pi_svd_ok (A : 'M[AC]_2) : adj A *m A = 1%:M -> svd_ok pi_np A.
Proof.
move=> U; split=> /=; rewrite ?pi_delta1 ?diag_const_mx ?mulmx1 ?mul1mx ?adj1 ?mulmx1 //.
- exact: mulmx1C.
- by move=> j; rewrite mxE ler01.
- by move=> i j _; rewrite !mxE.
Qed.
Lemma pi_lstsq_ok n r (M : 'M[AC]_(n, r)) y : lstsq_ok pi_np M y.
Proof. exact: ginv_lstsq. Qed.
Lemma pi_root_ok N : (0 < N)%N -> root_ok pi_pn N.
Proof. exact: root_of_prim. Qed.
Lemma pi_rq_ok (A : 'M[AC]_2) : adj A *m A = 1%:M -> rq_ok pi_pn A.
Proof.
move=> U; rewrite /rq_ok /= pi_delta1 !mul1mx; split=> //; first exact: mulmx1C.
by move=> i j lt; rewrite mxE; case: eqP lt => // ->; rewrite ltnNge leq_addr.
Qed.
Lemma pi_smallest0 (res : 'rV[AC]_2) : smallest_ok pi_pn res 0.
Proof.
have E : pi_smallest pi_pn res 0 = set0 by apply/setP=> i; rewrite !inE ltn0.
by split; rewrite E ?cards0 // => i j; rewrite inE.
Qed.
Lemma pi_real_X : real_mx pi_X.
Proof. by move=> i j; rewrite mxE; case: eqP. Qed.
Lemma pi_real_Y : real_mx swap2.
Proof. by move=> i j; rewrite mxE; case: (_ != _). Qed.
Lemma pi_lsqr_ok n (T : 'M[AC]_n) d : real_mx T -> real_mx d -> lsqr_ok pi_pn T d.
Proof.
move=> rT rd; split; last by move=> i j; rewrite mxE Creal_Re.
have K p q r (A : 'M[AC]_(p, q)) (B : 'M[AC]_(q, r)) : real_mx A -> A *m re_mx B = re_mx (A *m B).
  move=> rA; apply/matrixP=> i j; rewrite !mxE raddf_sum; apply: eq_bigr=> k _.
  by rewrite mxE /= ReMl //; exact: rA.
have rA : real_mx (adj T).
  by move=> i j; rewrite adjE; have /CrealP -> := rT j i; exact: rT.
have rd' : re_mx d = d by apply/matrixP=> i j; rewrite mxE; apply/Creal_ReP; exact: rd.
by have H := ginv_lstsq T d; rewrite /is_lstsq /= -mulmxA K // K // mulmxA H -K // rd'.
Qed.
Lemma pi_nz l : row_norm2 (circ_fX pi_pn pi_X) l != 0.
Proof.
rewrite /row_norm2 /circ_fX mulmx1 big_ord_recl big_ord1 !mxE !(good_normX (prim_good (root_of_prim (isT : 0 < 2)%N))).
by rewrite !expr1n -[1 + 1]/(2%:R) pnatr_eq0.
Qed.
Example C33_unitary_applies : exists o, pi_compute_operator pi_np pi_pn (pi_conf MUnitary MNone true) pi_X swap2 = Ok o /\
  best (@unitary AC _) (adj (po_U o) *m pi_X) (adj (po_U o) *m swap2) (po_Atilde o).
Proof.
eexists; split; first by []; apply: (C33_unitary (cfg := pi_conf MUnitary MNone true) (np := pi_np) (pn := pi_pn)) => //.
by rewrite /= take_max pi_delta1 adj1 !mul1mx adj1 mulmx1; apply: pi_svd_ok; exact: swap_unitary.
Qed.
Example C33_symmetric_applies : exists o, pi_compute_operator pi_np pi_pn (pi_conf MSymmetric MNone true) pi_X swap2 = Ok o /\
  best (@hermitian AC _) (adj (po_U o) *m pi_X) (adj (po_U o) *m swap2) (po_Atilde o).
Proof.
eexists; split; first by []; apply: (C33_symmetric (cfg := pi_conf MSymmetric MNone true) (np := pi_np) (pn := pi_pn)) => //=.
- by apply: pi_svd_ok; rewrite adj1 mulmx1.
- by move=> j; rewrite take_max mxE oner_eq0.
- exact: pi_real_Y.
- by move=> i j; rewrite mxE; case: (_ == _).
- by rewrite pi_delta1 mul1mx; exact: pi_real_X.
Qed.
Example C33_skew_applies : exists o, pi_compute_operator pi_np pi_pn (pi_conf MSkew MNone true) pi_X swap2 = Ok o /\
  best (@skew_hermitian AC _) (adj (po_U o) *m pi_X) (adj (po_U o) *m swap2) (po_Atilde o).
Proof.
eexists; split; first by []; apply: (C33_skew (cfg := pi_conf MSkew MNone true) (np := pi_np) (pn := pi_pn)) => //=.
- by apply: pi_svd_ok; rewrite adj1 mulmx1.
- by move=> j; rewrite take_max mxE oner_eq0.
Qed.
Example C33_reduced_A_applies : exists o, pi_compute_operator pi_np pi_pn (pi_conf MUnitary MNone true) pi_X swap2 = Ok o /\
  po_A o = Some (po_U o *m po_Atilde o *m adj (po_U o)).
Proof.
eexists; split; first by [].
apply: (proj1 (C33_reduced_A (cfg := pi_conf MUnitary MNone true) (np := pi_np) (pn := pi_pn) _ _ (erefl _) _ _ _ _)) => //.
- by apply: pi_svd_ok; rewrite adj1 mulmx1.
- by rewrite /= /unitary_atilde /= take_max pi_delta1 adj1 !mul1mx adj1 mulmx1; exact: ex_eig_ok.
- exact: ex_Wunit.
- exact: ginv_ok.
Qed.
Example C33_uppertriangular_applies : exists o, pi_compute_operator pi_np pi_pn (pi_conf MUpper MNone true) pi_X swap2 = Ok o /\
  fits_best (@upper_triangular AC 2) pi_X swap2 o.
Proof.
eexists; split; first by []; apply: (C33_uppertriangular (cfg := pi_conf MUpper MNone true) (np := pi_np) (pn := pi_pn)) => //.
- by rewrite row_free_unit unitmx1.
- by apply: pi_rq_ok; rewrite adj1 mulmx1.
- by move=> j; exact: pi_lstsq_ok.
Qed.
Example C33_lowertriangular_applies : exists o, pi_compute_operator pi_np pi_pn (pi_conf MLower MNone true) pi_X swap2 = Ok o /\
  fits_best (@lower_triangular AC 2) pi_X swap2 o.
Proof.
eexists; split; first by []; apply: (C33_lowertriangular (cfg := pi_conf MLower MNone true) (np := pi_np) (pn := pi_pn)) => //.
- by rewrite row_free_unit unitmx1.
- have -> : flipud pi_X = swap2 by apply/matrixP; apply: ord2P; apply: ord2P; rewrite !mxE.
  by apply: pi_rq_ok; exact: swap_unitary.
- by move=> j; exact: pi_lstsq_ok.
Qed.
Example C33_banded_applies : exists o, pi_compute_operator pi_np pi_pn (pi_conf MDiagonal (MTuple [:: 1; 2]) true) pi_X swap2 = Ok o /\
  fits_best (banded (fun _ => (1, 2)%N)) pi_X swap2 o.
Proof.
eexists; split; first by [].
apply: (C33_banded (cfg := pi_conf MDiagonal (MTuple [:: 1; 2]) true) (np := pi_np) (pn := pi_pn)) => //.
by move=> j; exact: pi_lstsq_ok.
Qed.
Example C33_toeplitz_applies : exists o, pi_compute_operator pi_np pi_pn (pi_conf MToeplitz MNone true) pi_X swap2 = Ok o /\
  fits_best (@is_toeplitz AC 2) pi_X swap2 o.
Proof.
eexists; split; first by []; apply: (C33_toeplitz (cfg := pi_conf MToeplitz MNone true) (np := pi_np) (pn := pi_pn)) => //.
- exact: pi_root_ok.
- exact: pi_lstsq_ok.
Qed.
Example C33_hankel_applies : exists o, pi_compute_operator pi_np pi_pn (pi_conf MHankel MNone true) pi_X swap2 = Ok o /\
  fits_best (@is_hankel AC 2) pi_X swap2 o.
Proof.
eexists; split; first by []; apply: (C33_hankel (cfg := pi_conf MHankel MNone true) (np := pi_np) (pn := pi_pn)) => //.
- exact: pi_root_ok.
- exact: pi_lstsq_ok.
Qed.
Example C33_circulant_applies c a : exists o, pi_compute_operator pi_np pi_pn (pi_conf (MCirculant c) MNone a) pi_X swap2 = Ok o /\
  if a then fits_best (fun A => is_circulant A /\ opt_holds c A) pi_X swap2 o
  else fits_best_modes (fun A => is_circulant A /\ opt_holds c A) pi_X swap2 o.
Proof.
have [o E] : exists o, pi_compute_operator pi_np pi_pn (pi_conf (MCirculant c) MNone a) pi_X swap2 = Ok o.
  by rewrite /pi_compute_operator /compute_procrustes /circulant /circ_exclude /=; case: a; eexists.
exists o; split; first by [].
apply: (C33_circulant (cfg := pi_conf (MCirculant c) MNone a) (np := pi_np) (pn := pi_pn) _ E) => //.
- exact: pi_root_ok.
- exact: pi_smallest0.
- exact: pi_real_X.
- exact: pi_nz.
Qed.
Example C33_symtridiagonal_applies : exists o, pi_compute_operator pi_np pi_pn (pi_conf MSymTri MNone true) pi_X swap2 = Ok o /\
  fits_best (@sym_tridiagonal AC 2) pi_X swap2 o.
Proof.
eexists; split; first by [].
apply: (C33_symtridiagonal (cfg := pi_conf MSymTri MNone true) (np := pi_np) (pn := pi_pn)) => //.
- exact: pi_real_X.
- exact: pi_real_Y.
- by apply: pi_lsqr_ok => i j; rewrite mxE Creal_Re.
Qed.
Example C33_block_circulant_applies tri : exists o,
  pi_compute_operator pi_np pi_pn (pi_conf (if tri then MBCTB else MBC) (MTuple [:: 1; 2]) true) pi_X swap2 = Ok o /\
  fits_best (fun A => is_block_circulant 1 2 A /\ (tri -> tridiagonal_blocks 1 A)) pi_X swap2 o.
Proof.
have [o E] : exists o, pi_compute_operator pi_np pi_pn (pi_conf (if tri then MBCTB else MBC) (MTuple [:: 1; 2]) true) pi_X swap2 = Ok o.
  by rewrite /pi_compute_operator /compute_procrustes; case: tri; eexists.
exists o; split; first by [].
apply: (proj2 (C33_block_circulant (np := pi_np) (pn := pi_pn) (p := 1) (q := 2) (tri := tri) _ _ E _ _ _)) => //.
- exact: pi_root_ok.
- by move=> j _; rewrite /bc_solves_ok; case: tri {E} => i; exact: pi_lstsq_ok.
Qed.
Example C33_bccb_applies c : exists o,
  pi_compute_operator pi_np pi_pn (pi_conf (MBCCB c) (MTuple [:: 1; 2]) true) pi_X swap2 = Ok o /\
  fits_best (fun A => is_bccb 1 2 A /\ opt_holds c A) pi_X swap2 o.
Proof.
have [o E] : exists o, pi_compute_operator pi_np pi_pn (pi_conf (MBCCB c) (MTuple [:: 1; 2]) true) pi_X swap2 = Ok o.
  by rewrite /pi_compute_operator /compute_procrustes; eexists.
exists o; split; first by [].
apply: (proj2 (C33_bccb (np := pi_np) (pn := pi_pn) (p := 1) (q := 2) (c := c) _ _ E _ _ _ _ _ _)) => //.
- exact: pi_root_ok.
- exact: pi_root_ok.
- exact: pi_smallest0.
- move=> l; rewrite (fft2_mul (pi_root_ok _) (pi_root_ok _)) // /row_norm2 mulmx1.
  have := congr1 (fun M : 'M_2 => M l l) (TFF_unitary (pi_root_ok (isT : 0 < 1)%N) (pi_root_ok (isT : 0 < 2)%N) (erefl 2%N)).
  rewrite [1%:M]lock mxE -lock mxE eqxx => H; rewrite (eq_bigr (fun t => TFF pi_pn 2 1 2 l t * (TFF pi_pn 2 1 2 l t)^*)).
    by under eq_bigr do rewrite -adjE; rewrite H oner_eq0.
  by move=> t _; rewrite -normCK [in LHS]mxE norm_conjC.
- by move=> l; exact: pi_lstsq_ok.
Qed.

(** ** Documented but false in general *)

(** "uppertriangular" with dependent rows: the operator need not be upper triangular *)
Definition bad_X : 'M[AC]_2 := \matrix_(i, j) (j == 1%N :> nat)%:R.
Definition bad_Y : 'M[AC]_2 := const_mx 1.
Definition tri_pn : pi_numpy AC := {|
  pi_rq := fun n m X => (X *m pi_delta _ _, pi_delta _ _);
  pi_lsqr := pi_lsqr pi_pn; pi_eigs := pi_eigs pi_pn; pi_smallest := pi_smallest pi_pn; pi_root := root_of |}.
Definition bad_P : 'M[AC]_2 := \matrix_(i, j) ((j == 1%N :> nat)%:R / 2%:R).
Lemma bad_pinv : is_pinv bad_X^T bad_P.
Proof.
have E1 : bad_X^T *m bad_P = \matrix_(i, j) ((i == 1%N :> nat) && (j == 1%N :> nat))%:R.
  apply/matrixP=> i j; rewrite !mxE big_ord_recl big_ord1 !mxE.
  by case: (i == 1%N :> nat); case: (j == 1%N :> nat); rewrite /= ?mul0r ?mul1r ?mul0r ?half2 ?addr0.
have E2 : bad_P *m bad_X^T = const_mx 2%:R^-1.
  by apply/matrixP=> i j; rewrite !mxE big_ord_recl big_ord1 !mxE /= mul0r mul0r add0r mul1r mulr1.
split.
- rewrite E1; apply/matrixP=> i j; rewrite !mxE big_ord_recl big_ord1 !mxE /=.
  by move: i j; apply: ord2P; apply: ord2P; rewrite /= ?mul0r ?mulr0 ?addr0 ?add0r ?mulr1.
- rewrite E2; apply/matrixP=> i j; rewrite !mxE big_ord_recl big_ord1 !mxE /=.
  by move: i j; apply: ord2P; apply: ord2P; rewrite /= ?mul0r ?mulr0 ?addr0 ?add0r ?mul1r // -mulrDl half2 mul1r.
- by rewrite E1; apply/matrixP=> i j; rewrite adjE !mxE andbC; case: (_ && _); rewrite ?rmorph0 ?rmorph1.
- by rewrite E2; apply/matrixP=> i j; rewrite adjE !mxE geC0_conj // invr_ge0 ler0n.
Qed.
Lemma ginv_range n r (M : 'M[AC]_(n, r)) (y : 'cV[AC]_n) : exists z, ginv M *m y = adj M *m z.
Proof.
by have [_ H2 _ H4] := ginv_ok M; exists (adj (ginv M) *m (ginv M *m y)); rewrite 2!mulmxA -adjM H4 H2.
Qed.
Theorem C33_uppertriangular_refuted : exists (np : numpy AC) (pn : pi_numpy AC) (X Y : 'M[AC]_2) o,
  [/\ rq_ok pn X,
      forall j, lstsq_ok np (pi_rq pn X).1^T (col j (triu (Y *m adj (pi_rq pn X).2))^T) /\
                min_norm np (pi_rq pn X).1^T (col j (triu (Y *m adj (pi_rq pn X).2))^T),
      pi_compute_operator np pn (pi_conf MUpper MNone true) X Y = Ok o &
      exists2 A, po_A o = Some A & ~ upper_triangular A].
Proof.
exists pi_np, tri_pn, bad_X, bad_Y; eexists; split; [| |by []|].
- rewrite /rq_ok /= pi_delta1 !mulmx1; split=> //; first by rewrite adj1 mulmx1.
  move=> i j lt; rewrite mxE; suff -> : (j == 1%N :> nat) = false by [].
  by case: i j lt => [[|[|i]] Hi] [[|[|j]] Hj].
- by move=> j; split; [exact: pi_lstsq_ok|exact: ginv_range].
- eexists; first by []; rewrite /uppertriangular /= pi_delta1 adj1 !mulmx1 => U.
  have := U (lift ord0 ord0) ord0 isT; rewrite mxE mxE /= (pinv_unique (ginv_ok _) bad_pinv).
  rewrite mxE big_ord_recl big_ord1 !mxE /= mul0r mul0r add0r mul1r mulr1 => /eqP.
  by rewrite invr_eq0 pnatr_eq0.
Qed.

(** "symmetric" with complex data: the imaginary parts are lost, so the fit is not the best one *)
Definition herm_Y : 'M[AC]_2 := \matrix_(i, j) (if i == j then 0 else if (i < j)%N then 'i else - 'i).
Lemma herm_ok : adj herm_Y = herm_Y.
Proof.
apply/matrixP=> i j; rewrite adjE !mxE eq_sym; move: i j; apply: ord2P; apply: ord2P;
  rewrite /= ?rmorph0 // ?rmorphN /= ?conjCi ?opprK //.
Qed.
Theorem C33_symmetric_complex_refuted : exists (np : numpy AC) (pn : pi_numpy AC) (X Y : 'M[AC]_2) o,
  [/\ svd_ok np X, forall j, po_s o 0 j != 0, hermitian Y,
      pi_compute_operator np pn (pi_conf MSymmetric MNone true) X Y = Ok o &
      ~ best (@hermitian AC _) (adj (po_U o) *m X) (adj (po_U o) *m Y) (po_Atilde o)].
Proof.
exists pi_np, pi_pn, pi_X, herm_Y; eexists; split; [| | |by []|].
- by apply: pi_svd_ok; rewrite adj1 mulmx1.
- by move=> j /=; rewrite take_max mxE oner_eq0.
- exact: herm_ok.
rewrite /= take_max pi_delta1 adj1 !mul1mx => -[_ /(_ herm_Y herm_ok)].
have -> : sym_atilde pi_np pi_X herm_Y ord_max = 0.
  have S : sym_upper ord_max (np_svd pi_np pi_X).1.2 (sym_C pi_np pi_X herm_Y) = 0.
    rewrite /sym_C /= pi_delta1 mul1mx adj1 mul1mx mulmx1.
    apply/matrixP=> i j; rewrite [LHS]mxE [RHS]mxE; cbv zeta; case: eqP => [->|ne].
      by rewrite !mxE eqxx raddf0 mul0r.
    case: ifP => // lt; rewrite !mxE !mul1r; case: eqP => [/(congr1 val) /= E|_]; first by rewrite E ltnn in lt.
    case: eqP => [/(congr1 val) /= E|_]; first by rewrite E ltnn in lt.
    by rewrite /= lt ltnNge (ltnW lt) /= rmorphN /= conjCi opprK raddfD /= Re_i addr0 mul0r.
  rewrite /sym_atilde S adj0 add0r sub0r; apply/eqP; rewrite oppr_eq0; apply/eqP/matrixP=> i j.
  by rewrite !mxE raddf0 mul0rn.
rewrite mul0mx subr0 mulmx1 subrr => le0; have {le0} le0 : frob2 herm_Y <= 0 by apply: le_trans le0 _; rewrite (eqP (_ : frob2 0 == 0)) ?frob2_eq0.
have /eqP : frob2 herm_Y = 0 by apply/eqP; rewrite eq_le le0 frob2_ge0.
rewrite frob2_eq0 => /eqP H; have := congr1 (fun M : 'M_2 => M ord0 (lift ord0 ord0)) H.
by rewrite !mxE /= => /eqP; apply/negP; exact: neq0Ci.
Qed.

(** "circulant" with complex data: not the best circulant fit, although it claims one eigenvalue per Fourier row *)
Theorem C33_circulant_complex_refuted : exists (np : numpy AC) (pn : pi_numpy AC) (X Y : 'M[AC]_1) o,
  [/\ root_ok pn 1, forall l, row_norm2 (circ_fX pn X) l != 0,
      smallest_ok pn (importance (circ_fX pn X) (circ_fY pn Y)) 0,
      pi_compute_operator np pn (pi_conf (MCirculant CFree) MNone true) X Y = Ok o &
      exists2 A, po_A o = Some A & ~ best (@is_circulant AC 1) X Y A].
Proof.
have d1 : dft pi_pn 1 = 1%:M by apply/matrixP=> i j; rewrite !mxE !ord1 expr0.
have i1 : idft pi_pn 1 = 1%:M by apply/matrixP=> i j; rewrite !mxE !ord1 expr0 divr1.
have s0 (res : 'rV[AC]_1) : pi_smallest pi_pn res 0 = set0 by apply/setP=> i; rewrite !inE ltn0.
exists pi_np, pi_pn, ('i)%:M, 1%:M; eexists; split; [exact: pi_root_ok| | |by []|].
- by move=> l; rewrite /row_norm2 /circ_fX d1 mul1mx big_ord1 mxE !ord1 eqxx normCi expr1n oner_eq0.
- by split; rewrite s0 ?cards0 // => i j; rewrite inE.
eexists; first by [].
set A := _ *m _; have -> : A = ('i)%:M.
  rewrite /A (_ : pi_smallest _ _ _ = set0); last exact: s0.
  rewrite d1 i1 !mul1mx trmx1 zero_out0.
  apply/matrixP=> i j; rewrite !ord1 scale_colsE mul1mx tr_diag_mx !mxE !mulr1n /row_dot /row_norm2 !big_ord1 /circ_fX /circ_fY d1 !mul1mx.
  by rewrite !mxE !eqxx !mulr1n normCi expr1n divr1 conjCK mulr1.
move=> [_ H]; have {H} := H (- 'i)%:M; have h : is_circulant ((- 'i)%:M : 'M[AC]_1) by move=> i j i' j' _; rewrite !ord1.
move=> /(_ h) {h}.
rewrite -!scalar_mxM mulNr -expr2 sqrCi opprK subrr => H; move: H.
have -> : frob2 (0 : 'M[AC]_1) = 0 by apply/eqP; rewrite frob2_eq0.
move=> le0; have /eqP : frob2 (1%:M - (-1)%:M : 'M[AC]_1) = 0 by apply/eqP; rewrite eq_le le0 frob2_ge0.
rewrite frob2_eq0 => /eqP /matrixP/(_ 0 0)/eqP; rewrite !mxE opprK -[_ + _]/(2%:R) pnatr_eq0 //.
Qed.

(** the truncated unitary case is met: two measurements, one snapshot *)
Definition one_X : 'M[AC]_(2, 1) := \matrix_(i, j) (i == 0%N :> nat)%:R.
Definition one_Y : 'M[AC]_(2, 1) := \matrix_(i, j) (i == 1%N :> nat)%:R.
Lemma one_row (F : 'M[AC]_2) (l : 'I_2) (c : AC) : (forall i j, `|F i j| = c) ->
  importance (F *m one_X) (F *m conj_mx one_Y) 0 l = c * c / sqrtC (c ^+ 2).
Proof.
move=> H; rewrite mxE /row_dot /row_norm2 !big_ord1 !mxE !big_ord_recl !big_ord0 !mxE /=.
by rewrite !(rmorph0, rmorph1, mulr0, mulr1, addr0, add0r) normrM norm_conjC !H.
Qed.
Example C33_circulant_unitary_refuted_applies : exists o,
  pi_compute_operator pi_np pi_pn (pi_conf (MCirculant CUnitary) MNone true) one_X one_Y = Ok o /\
  exists2 A, po_A o = Some A & ~ unitary A.
Proof.
have [o E] : exists o, pi_compute_operator pi_np pi_pn (pi_conf (MCirculant CUnitary) MNone true) one_X one_Y = Ok o.
  by rewrite /pi_compute_operator /compute_procrustes /circulant /circ_exclude /=; eexists.
exists o; split; first by [].
apply: (C33_circulant_unitary_refuted (np := pi_np) (pn := pi_pn) _ _ E) => //; first exact: pi_root_ok.
split; first by apply: etrans (cards1 (ord0 : 'I_2)); apply: eq_card=> i; rewrite !inE; case: i => [[|[|i]] Hi].
have H a b : `|dft pi_pn 2 a b| = 1 by rewrite mxE; exact: (good_normX (prim_good (root_of_prim (isT : 0 < 2)%N))).
by move=> i j _ _; rewrite /circ_fX /circ_fY (one_row i H) (one_row j H).
Qed.

Print Assumptions C33_unitary.
Print Assumptions C33_symmetric_structure.
Print Assumptions C33_skew_structure.
Print Assumptions C33_symmetric.
Print Assumptions C33_skew.
Print Assumptions C33_reduced_A.
Print Assumptions C33_full_eigenpairs.
Print Assumptions C33_uppertriangular.
Print Assumptions C33_lowertriangular.
Print Assumptions C33_banded.
Print Assumptions C33_toeplitz.
Print Assumptions C33_hankel.
Print Assumptions C33_circulant.
Print Assumptions C33_circulant_structure.
Print Assumptions C33_circulant_unitary_refuted.
Print Assumptions C33_symtridiagonal.
Print Assumptions C33_symtridiagonal_structure.
Print Assumptions C33_block_circulant.
Print Assumptions C33_bccb.
Print Assumptions C33_bccb_structure.
Print Assumptions C33_bccb_unitary_refuted.
Print Assumptions C33_refused_without_A.
Print Assumptions C33_refused_unknown.
Print Assumptions C33_refused_block_shape.
Print Assumptions C33_band_option.
Print Assumptions C33_get_A.
Print Assumptions C33_uppertriangular_refuted.
Print Assumptions C33_symmetric_complex_refuted.
Print Assumptions C33_circulant_complex_refuted.
