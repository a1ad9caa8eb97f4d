(** * Lemmas for C33: unitary, triangular, banded, symmetric and skew-symmetric manifolds *)
From mathcomp Require Import all_ssreflect all_algebra.
From Verif Require Import Py LinAlg Model_Operator Spec_Operator Proofs_OpCore Proofs_Operator Model_CDMD Spec_CDMD Proofs_CDMD Model_PiDMD Spec_PiDMD Proofs_PiAlg.
Set Implicit Arguments. Unset Strict Implicit. Unset Printing Implicit Defensive.
Import Order.TTheory GRing.Theory Num.Theory.
Local Open Scope ring_scope.

Section Proofs.
Variables (C : numClosedFieldType) (np : numpy C) (pn : pi_numpy C).

(** ** unitary *)
Lemma sq_unit r k (U : 'M[C]_(r, k)) : k = r -> adj U *m U = 1%:M -> U *m adj U = 1%:M.
Proof. by move=> E; subst k; apply: mulmx1C. Qed.
Lemma sq_unit' r k (V : 'M[C]_(k, r)) : k = r -> V *m adj V = 1%:M -> adj V *m V = 1%:M.
Proof. by move=> E; subst k; apply: mulmx1C. Qed.
Lemma unitary_diag_le k (Z : 'M[C]_k) i : adj Z *m Z = 1%:M -> `|Z i i| <= 1.
Proof.
move=> H; have := congr1 (fun M : 'M_k => M i i) H; rewrite !mxE eqxx => E.
rewrite -(@ler_pexpn2r _ 2) ?nnegrE ?ler01 ?normr_ge0 // expr1n -[1]E (bigD1 i) //= adjE -normCKC ler_addl.
by apply: sumr_ge0=> j _; rewrite adjE -normCKC exprn_ge0.
Qed.
Lemma frob2_sub n m (A B : 'M[C]_(n, m)) :
  frob2 (A - B) = frob2 A + frob2 B - (\tr (A *m adj B) + (\tr (A *m adj B))^*).
Proof.
rewrite !frob2_tr adjB mulmxBl !mulmxBr !linearB /=.
have -> : \tr (B *m adj A) = (\tr (A *m adj B))^*.
  rewrite -(adjK B) -adjM adjK /mxtrace rmorph_sum; apply: eq_bigr=> i _; by rewrite adjE.
by rewrite opprB addrACA -opprD.
Qed.
Lemma procrustes_best r m (Yp Xp : 'M[C]_(r, m)) (U : 'M[C]_(r, minn r r)) s Vh :
  is_svd (Yp *m adj Xp) U s Vh -> best (@unitary C r) Xp Yp (U *m Vh).
Proof.
case=> E UU VV s0 _; have kr : minn r r = r by apply: minnn.
have UU' := sq_unit kr UU; have VV' := sq_unit' kr VV.
have UA : unitary (U *m Vh) by rewrite /unitary adjM -mulmxA (mulmxA (adj U)) UU mul1mx.
split=> // Q HQ; rewrite !frob2_sub !frob2_iso // ler_add2l ler_opp2.
have T (Q' : 'M[C]_r) : \tr (Yp *m adj (Q' *m Xp)) = \sum_i s 0 i * (Vh *m adj Q' *m U) i i.
  rewrite adjM mulmxA E -!mulmxA mxtrace_mulC -!mulmxA /mxtrace.
  by apply: eq_bigr=> i _; rewrite mul_diag_mx mxE.
rewrite !T.
have -> : Vh *m adj (U *m Vh) *m U = 1%:M by rewrite adjM mulmxA VV mul1mx.
set Z := Vh *m adj Q *m U.
have HZ : adj Z *m Z = 1%:M.
  rewrite /Z !adjM adjK -!mulmxA (mulmxA (adj Vh)) VV' mul1mx (mulmxA Q).
  by have := HQ; rewrite /unitary => /mulmx1C ->; rewrite mul1mx.
rewrite !rmorph_sum -!big_split /=; apply: ler_sum=> i _.
have -> : (1%:M : 'M[C]_(minn r r)) i i = 1 by rewrite mxE eqxx.
rewrite !rmorphM rmorph1 (geC0_conj (s0 i)) -!mulrDr ler_wpmul2l //.
have le := unitary_diag_le i HZ.
have -> : Z i i + (Z i i)^* = 'Re (Z i i) + 'Re (Z i i) by rewrite ReE -splitr.
have h : 'Re (Z i i) <= 1.
  by apply: le_trans le; apply: le_trans (Re_le _); rewrite real_ler_norm // Creal_Re.
by apply: ler_add.
Qed.

(** ** triangular *)
Lemma colsP q p (A B : 'M[C]_(q, p)) : (forall j, col j A = col j B) -> A = B.
Proof. by move=> H; apply/matrixP=> i j; have := congr1 (fun v : 'cV_q => v i 0) (H j); rewrite !mxE. Qed.
Lemma col_mulE a b q (A : 'M[C]_(a, b)) (B : 'M[C]_(b, q)) j : col j (A *m B) = A *m col j B.
Proof. by apply/colP=> i; rewrite !mxE; apply: eq_bigr=> k _; rewrite mxE. Qed.
Lemma lstsq_mxE n r p (M : 'M[C]_(n, r)) (Y : 'M[C]_(n, p)) : lstsq_mx_ok np M Y -> is_lstsq M Y (lstsq_mx np M Y).
Proof.
move=> H; rewrite /is_lstsq; apply: colsP=> j; rewrite !col_mulE -H; congr (_ *m _).
by apply/colP=> i; rewrite !mxE.
Qed.
Lemma triu_solve n (A R U : 'M[C]_n) : A *m R = U -> upper_triangular R -> upper_triangular U -> R \in unitmx ->
  upper_triangular A.
Proof.
move=> E uR uU inv i j ji.
have dR k : R k k != 0.
  have tr : is_trig_mx R^T by apply/is_trig_mxP=> a b ab; rewrite mxE uR.
  move: inv; rewrite unitmxE -det_tr (det_trig tr) unitfE => nz; apply/eqP=> z.
  by move: nz; rewrite (bigD1 k) //= mxE z mul0r eqxx.
have [b] := ubnP j; elim: b j ji => // b IH j ji jb.
have := congr1 (fun M : 'M_n => M i j) E; rewrite mxE (uU i j ji) (bigD1 j) //= big1 => [|k nk].
  by rewrite addr0 => /eqP; rewrite mulf_eq0 (negbTE (dR j)) orbF => /eqP.
have [kj|jk] := ltnP k j; first by rewrite (IH k) ?mul0r //; [exact: ltn_trans ji|exact: leq_trans kj _].
by rewrite (uR k j) ?mulr0 // ltn_neqAle jk andbT eq_sym.
Qed.
(** splitting the error along orthonormal rows *)
Lemma proj_split n m k (Y : 'M[C]_(n, m)) (Q : 'M[C]_(k, m)) (Z : 'M[C]_(n, k)) : Q *m adj Q = 1%:M ->
  frob2 (Y - Z *m Q) = frob2 (Y *m adj Q - Z) + frob2 (Y - Y *m adj Q *m Q).
Proof.
move=> QQ; have -> : Y - Z *m Q = (Y *m adj Q - Z) *m Q + (Y - Y *m adj Q *m Q).
  by rewrite mulmxBl [RHS]addrC addrA subrK.
rewrite (frob2D_orth (M := (Y *m adj Q - Z) *m Q)) ?(frob2_iso_r _ QQ) //.
by rewrite adjB !adjM adjK mulmxBr -!mulmxA (mulmxA Q (adj Q)) QQ mul1mx subrr.
Qed.
Lemma best_rows n m k P (S : 'M[C]_(n, k)) (Q : 'M[C]_(k, m)) (Y : 'M[C]_(n, m)) A : Q *m adj Q = 1%:M ->
  best P S (Y *m adj Q) A -> best P (S *m Q) Y A.
Proof.
by move=> QQ [pA H]; split=> // B pB; rewrite !mulmxA (proj_split Y (A *m S) QQ) (proj_split Y (B *m S) QQ) ler_add2r; apply: H.
Qed.
Lemma upper_core n m k (X Y : 'M[C]_(n, m)) (R : 'M[C]_(n, k)) (Q : 'M[C]_(k, m)) :
  k = n -> X = R *m Q -> Q *m adj Q = 1%:M -> (forall (i : 'I_n) (j : 'I_k), (j + (n - k) < i)%N -> R i j = 0) ->
  row_free X -> lstsq_mx_ok np R^T (triu (Y *m adj Q))^T ->
  best (@upper_triangular C n) X Y (lstsq_mx np R^T (triu (Y *m adj Q))^T)^T.
Proof.
move=> E; subst k => EX QQ uR fX /lstsq_mxE; set Ut := triu _; set A := (lstsq_mx _ _ _)^T => H.
have uR' : upper_triangular R by move=> i j ji; apply: uR; rewrite subnn addn0.
have Ru : R \in unitmx.
  rewrite -row_free_unit; apply/row_freeP; move: fX => /row_freeP [L HL].
  by exists (Q *m L); rewrite mulmxA -EX.
have RTu : R^T \in unitmx by rewrite unitmx_tr.
have AR : A *m R = Ut.
  have /lstsq_range : is_lstsq R^T Ut^T (lstsq_mx np R^T Ut^T) by [].
  move=> /(_ (invmx R^T *m Ut^T)); rewrite mulmxA mulmxV // mul1mx => /(_ erefl) E.
  by apply: trmx_inj; rewrite trmx_mul trmxK.
have uU : upper_triangular Ut by move=> i j ji; rewrite mxE leqNgt ji.
have uA := triu_solve AR uR' uU Ru.
split=> // B uB.
rewrite EX !mulmxA (proj_split Y (A *m R) QQ) (proj_split Y (B *m R) QQ) ler_add2r AR; apply: ler_sum=> i _; apply: ler_sum=> j _; rewrite !mxE.
have [ij|ji] := leqP i j; first by rewrite subrr normr0 expr0n /= exprn_ge0.
rewrite [X in _ <= `|_ - X| ^+ 2]big1 // => k _; have [ki|ik] := ltnP k i; first by rewrite uB ?mul0r.
by rewrite uR' ?mulr0 // (leq_trans ji).
Qed.
Lemma uppertriangular_best n m (X Y : 'M[C]_(n, m)) : rq_ok pn X -> row_free X ->
  lstsq_mx_ok np (pi_rq pn X).1^T (triu (Y *m adj (pi_rq pn X).2))^T ->
  best (@upper_triangular C n) X Y (uppertriangular np pn X Y).
Proof.
rewrite /rq_ok /uppertriangular; case: (pi_rq pn X) => R Q [E QQ uR] fX /= H.
apply: upper_core => //; apply/minn_idPl.
by move: fX; rewrite /row_free => /eqP <-; exact: rank_leq_col.
Qed.

(** rotating and flipping *)
Lemma flipudK n m : involutive (@flipud C n m).
Proof. by move=> X; apply/matrixP=> i j; rewrite !mxE rev_ordK. Qed.
Lemma rot180K n m : involutive (@rot180 C n m).
Proof. by move=> X; apply/matrixP=> i j; rewrite !mxE !rev_ordK. Qed.
Lemma rot_flip n m (A : 'M[C]_n) (X : 'M[C]_(n, m)) : rot180 A *m X = flipud (A *m flipud X).
Proof.
apply/matrixP=> i j; rewrite !mxE (reindex_inj rev_ord_inj); apply: eq_bigr=> k _.
by rewrite !mxE rev_ordK.
Qed.
Lemma frob2_flip n m (X : 'M[C]_(n, m)) : frob2 (flipud X) = frob2 X.
Proof.
rewrite /frob2 (reindex_inj rev_ord_inj); apply: eq_bigr=> i _; apply: eq_bigr=> j _.
by rewrite mxE rev_ordK.
Qed.
Lemma flipB n m (X Y : 'M[C]_(n, m)) : flipud (X - Y) = flipud X - flipud Y.
Proof. by apply/matrixP=> i j; rewrite !mxE. Qed.
Lemma lower_upper n (A : 'M[C]_n) : lower_triangular (rot180 A) <-> upper_triangular A.
Proof.
have rv (a b : 'I_n) : (a < b)%N -> (rev_ord b < rev_ord a)%N.
  by move=> ab /=; apply: ltn_sub2l; rewrite ?ltnS // (leq_trans _ (ltn_ord b)).
split=> H i j lt; last by rewrite mxE H //; apply: rv.
by have := H (rev_ord i) (rev_ord j); rewrite mxE !rev_ordK; apply; apply: rv.
Qed.
Lemma lower_best n m (X Y : 'M[C]_(n, m)) A :
  best (@upper_triangular C n) (flipud X) (flipud Y) A -> best (@lower_triangular C n) X Y (rot180 A).
Proof.
case=> uA H; split; first exact/lower_upper.
move=> B lB; have := H (rot180 B); rewrite -{1}[B]rot180K in lB; move/lower_upper: lB => uB /(_ uB).
by rewrite -frob2_flip -[X in _ <= X -> _]frob2_flip !flipB !flipudK -!rot_flip rot180K.
Qed.

(** ** banded *)
Lemma row_atE n m (X : 'M[C]_(n, m)) (i : 'I_n) t : row_at X i t = X i t.
Proof. by rewrite /row_at valK. Qed.
Lemma row_at_out n m (X : 'M[C]_(n, m)) a t : (n <= a)%N -> row_at X a t = 0.
Proof. by move=> H; rewrite /row_at insubF // ltnNge H. Qed.
Definition fun_at n (f : 'I_n -> C) (a : nat) : C := if insub a is Some i then f i else 0.
Lemma fun_atE n (f : 'I_n -> C) (i : 'I_n) : fun_at f i = f i.
Proof. by rewrite /fun_at valK. Qed.
Lemma sum_slice n (f : 'I_n -> C) l1 l2 : (l2 <= n)%N -> (forall i : 'I_n, ~~ ((l1 <= i) && (i < l2))%N -> f i = 0) ->
  \sum_i f i = \sum_(k < l2 - l1) fun_at f (l1 + k).
Proof.
move=> le H; have -> : \sum_i f i = \sum_(0 <= a < n) fun_at f a.
  by rewrite big_mkord; apply: eq_bigr=> i _; rewrite fun_atE.
have Z a : ~~ ((l1 <= a) && (a < l2))%N -> fun_at f a = 0.
  by move=> o; rewrite /fun_at; case: insubP => // i _ E; apply: H; rewrite E.
have [l12|l21] := leqP l1 l2; last first.
  rewrite big1_seq => [|a _]; last first.
    by apply: Z; apply/negP=> /andP[h1 h2]; move: (leq_ltn_trans h1 h2); rewrite ltnNge ltnW.
  have -> : (l2 - l1 = 0)%N by apply/eqP; rewrite subn_eq0 ltnW.
  by rewrite big_ord0.
rewrite (@big_cat_nat _ _ _ l1) ?(leq_trans l12) //= [X in X + _]big_nat_cond [X in X + _]big1 => [|a]; last first.
  by rewrite andbT => /andP[_ h]; apply: Z; rewrite leqNgt h.
rewrite add0r (@big_cat_nat _ _ _ l2) //= [X in _ + X]big_nat_cond [X in _ + X]big1 => [|a]; last first.
  by rewrite andbT => /andP[h _]; apply: Z; rewrite [(a < _)%N]ltnNge h andbF.
rewrite addr0 -{1}[l1]add0n big_addn big_mkord.
by apply: eq_bigr=> k _; rewrite addnC.
Qed.
Lemma band_l2_le n w j : (band_l2 n w j <= n)%N.
Proof. exact: geq_minl. Qed.
Lemma in_band n (w : nat * nat) (i j : 'I_n) :
  ((band_l1 w i <= j) && (j < band_l2 n w i))%N = ((i < j + w.1) && (j < i + w.2))%N.
Proof. by rewrite /band_l1 /band_l2 leq_min ltn_ord /= leq_subLR addnC. Qed.
(** a banded row acts through its slice *)
Lemma banded_row n m (w : 'I_n -> nat * nat) (A : 'M[C]_n) (X : 'M[C]_(n, m)) i : banded w A ->
  (row i (A *m X))^T = (row_slice X (band_l1 (w i) i) (band_l2 n (w i) i))^T *m
                       \col_k fun_at (fun j => A i j) (band_l1 (w i) i + k).
Proof.
move=> bA; apply/colP=> t; rewrite !mxE.
rewrite (@sum_slice _ _ (band_l1 (w i) i) (band_l2 n (w i) i)) ?band_l2_le //.
  apply: eq_bigr=> k _; rewrite !mxE /fun_at /row_at; case: insub => [j|]; last by rewrite mulr0.
  by rewrite mulrC.
move=> j; rewrite in_band => /negP nb; have [-> |nz] := eqVneq (A i j) 0; first by rewrite mul0r.
by case: nb; apply/andP; apply: bA.
Qed.
Lemma band_matrix_banded n m w (X Y : 'M[C]_(n, m)) : banded w (band_matrix np w X Y).
Proof. by move=> i j; rewrite mxE; cbv zeta; rewrite in_band; case: ifP => [/andP //|]; rewrite eqxx. Qed.
Lemma band_matrix_row n m w (X Y : 'M[C]_(n, m)) i :
  (row i (band_matrix np w X Y *m X))^T =
  (row_slice X (band_l1 (w i) i) (band_l2 n (w i) i))^T *m
  np_lstsq np (row_slice X (band_l1 (w i) i) (band_l2 n (w i) i))^T (row i Y)^T.
Proof.
rewrite (banded_row _ i (@band_matrix_banded _ _ w X Y)); congr (_ *m _); apply/colP=> k; rewrite mxE.
have lt : (band_l1 (w i) i + k < band_l2 n (w i) i)%N by rewrite -ltn_subRL.
rewrite /fun_at insubT; first exact: leq_trans lt (band_l2_le _ _ _).
move=> h; rewrite mxE /= leq_addr lt /= addKn valK.
by [].
Qed.
Lemma band_matrix_best n m (w : 'I_n -> nat * nat) (X Y : 'M[C]_(n, m)) :
  (forall i, lstsq_ok np (row_slice X (band_l1 (w i) i) (band_l2 n (w i) i))^T (row i Y)^T) ->
  best (banded w) X Y (band_matrix np w X Y).
Proof.
move=> H; split; first exact: band_matrix_banded.
move=> B bB; apply: rows_best=> i.
have E (A : 'M[C]_n) : frob2 (row i (Y - A *m X)) = frob2 ((row i Y)^T - (row i (A *m X))^T).
  by rewrite -frob2_T; congr frob2; apply/colP=> t; rewrite !mxE.
by rewrite !E band_matrix_row (banded_row _ i bB); apply: lstsq_optimal (H i).
Qed.

(** ** symmetric and skew-symmetric *)
Definition pair_fit r (e : C) (M : 'M[C]_r) (s : 'rV[C]_r) : 'M[C]_r :=
  \matrix_(i, j) ((e * (s 0 i * (M j i)^*) + s 0 j * M i j) / (s 0 i ^+ 2 + s 0 j ^+ 2)).
Lemma pair_best r (e : C) (M : 'M[C]_r) (s : 'rV[C]_r) : e^* = e -> e * e = 1 -> (forall j, 0 < s 0 j) ->
  best (fun A => adj A = e *: A) (diag_mx s) M (pair_fit e M s).
Proof.
move=> er ee s0.
have sr j : (s 0 j)^* = s 0 j by rewrite geC0_conj // ltW.
have e1 : `|e| = 1.
  by apply/eqP; rewrite -(@eqr_expn2 _ 2) ?normr_ge0 ?ler01 // normCK er ee expr1n.
have HP : adj (pair_fit e M s) = e *: pair_fit e M s.
  apply/matrixP=> i j; rewrite adjE !mxE rmorphM fmorphV.
  have -> : (s 0 j ^+ 2 + s 0 i ^+ 2)^* = s 0 i ^+ 2 + s 0 j ^+ 2 by rewrite rmorphD !rmorphX /= !sr addrC.
  rewrite [in RHS]mulrA; congr (_ / _); rewrite rmorphD !rmorphM /= !sr conjCK er addrC.
  by rewrite mulrDr !mulrA ee mul1r.
split; first exact: HP.
move=> B hB.
have F (A : 'M[C]_r) : adj A = e *: A ->
  frob2 (M - A *m diag_mx s) *+ 2 =
  \sum_i \sum_j frob2 ((row_mx (M i j)%:M (e * (M j i)^*)%:M : 'rV_(1+1)) - A i j *: row_mx (s 0 j)%:M (s 0 i)%:M).
  move=> hA; rewrite mulr2n {2}/frob2 [X in _ + X]exchange_big -big_split; apply: eq_bigr=> i _.
  rewrite -big_split; apply: eq_bigr=> j _.
  rewrite [in RHS]/frob2 big_ord1 big_split_ord !big_ord1 !mul_mx_diag.
  rewrite !mxE !(unsplitK (inl 0)) !(unsplitK (inr 0)) !mxE eqxx !mulr1n /=; congr (_ + _).
  have -> : e * (M j i)^* - A i j * s 0 i = e * (M j i - A j i * s 0 i)^*.
    rewrite rmorphB rmorphM sr mulrBr mulrA; congr (_ - _ * _).
    by have := congr1 (fun N : 'M_r => N i j) hA; rewrite adjE mxE => ->; rewrite mulrA ee mul1r.
  by rewrite normrM e1 mul1r norm_conjC.
have G (A : 'M[C]_r) : adj A = e *: A -> frob2 (M - pair_fit e M s *m diag_mx s) *+ 2 <= frob2 (M - A *m diag_mx s) *+ 2.
  move=> hA; rewrite (F _ HP) (F _ hA).
  apply: ler_sum=> i _; apply: ler_sum=> j _.
  apply: (row_fit_le (c := pair_fit e M s i j)); last by rewrite subrr normr0.
  have nz : s 0 i ^+ 2 + s 0 j ^+ 2 != 0 by rewrite gt_eqF // addr_gt0 ?exprn_gt0.
  rewrite /frob2 !big_ord1 !big_split_ord !big_ord1 /= !mxE !(unsplitK (inl 0)) !(unsplitK (inr 0)) !mxE eqxx !mulr1n.
  rewrite !ger0_norm ?ltW // !sr [X in _ * X]addrC mulfVK //.
  by rewrite addrC; congr (_ + _); rewrite mulrCA.
by have := G B hB; rewrite ler_pmuln2r.
Qed.

Lemma sym_hermitian n m (X Y : 'M[C]_(n, m)) r : hermitian (sym_atilde np X Y r).
Proof.
rewrite /hermitian /sym_atilde; set a := sym_upper _ _ _; rewrite !adjD adjK adjN adj_diag addrCA; congr (_ + (_ - diag_mx _)).
by apply/rowP=> i; rewrite !mxE; apply/CrealP; exact: Creal_Re.
Qed.
Lemma skew_skew n m (X Y : 'M[C]_(n, m)) r : skew_hermitian (skew_atilde np X Y r).
Proof.
rewrite /skew_hermitian /skew_atilde; set a := skew_upper _ _ _.
rewrite !adjD !adjN adjK adjZ adj_diag conjCi scaleNr !opprD !opprK addrCA; congr (_ + (_ + _ *: diag_mx _)).
by apply/rowP=> i; rewrite !mxE; apply/CrealP; exact: Creal_Im.
Qed.

Definition trunc_mx k (r : 'I_k.+1) (M : 'M[C]_k) : 'M[C]_r :=
  \matrix_(i, j) M (widen_ord (leq_ord r) i) (widen_ord (leq_ord r) j).
Lemma sym_C_trunc n m (X Y : 'M[C]_(n, m)) (r : 'I_(minn n m).+1) :
  trunc_mx r (sym_C np X Y) = adj (take_cols (np_svd np X).1.1 r) *m Y *m take_cols (adj (np_svd np X).2) r.
Proof.
rewrite /sym_C; case: (np_svd np X) => [[U s] Vh] /=; apply/matrixP=> i j; rewrite !mxE.
apply: eq_bigr=> k _; rewrite !mxE; congr (_ * _); apply: eq_bigr=> l _.
by rewrite !mxE.
Qed.
Lemma dbl_div (a x : C) : x != 0 -> (x * (a + a)) / (x ^+ 2 + x ^+ 2) = a / x.
Proof.
move=> nz; apply/eqP; rewrite eqr_div //; last by rewrite -mulr2n mulrn_eq0 /= sqrf_eq0.
by rewrite expr2 !mulrDr !mulrDl !mulrA ![x * a]mulrC.
Qed.
Lemma sym_atildeE n m (X Y : 'M[C]_(n, m)) (r : 'I_(minn n m).+1) : svd_ok np X -> real_mx (sym_C np X Y) ->
  (forall j, take_cols (np_svd np X).1.2 r 0 j != 0) ->
  sym_atilde np X Y r = pair_fit 1 (trunc_mx r (sym_C np X Y)) (take_cols (np_svd np X).1.2 r).
Proof.
move=> [_ _ _ s0 _] rM nz; rewrite /sym_atilde; set M := sym_C np X Y; set s := (np_svd np X).1.2.
have sr j : s 0 j \is Num.real by apply: ger0_real.
have Rr a b : 'Re (s 0 a * (M b a)^* + s 0 b * M a b) = s 0 a * (M b a)^* + s 0 b * M a b.
  by apply/Creal_ReP; rewrite rpredD ?rpredM ?conj_Creal ?rM.
apply/matrixP=> i j; rewrite !mxE -/M -/s [j == i]eq_sym; cbv zeta.
case: (ltngtP i j) => ij.
- have -> : (i == j) = false by apply/negbTE; rewrite neq_ltn ij.
  by rewrite ?eqxx rmorph0 mulr0n subr0 addr0 Rr mul1r.
- have -> : (i == j) = false by apply/negbTE; rewrite neq_ltn ij orbT.
  rewrite mulr0n subr0 add0r Rr rmorphM fmorphV /= mul1r.
  rewrite addrC; congr (_ / _); rewrite rmorphD ?rmorphM ?rmorphX /=.
  + by rewrite !(conj_Creal (sr _)) conjCK addrC.
  + by rewrite !(conj_Creal (sr _)) addrC.
- move/val_inj: ij => <-; rewrite !eqxx mulr1n.
  set x := 'Re _ / _; have xr : x \is Num.real by rewrite realM ?Creal_Re ?realV.
  rewrite (conj_Creal xr) (Creal_ReP _ xr) subrr addr0 mul1r -mulrDr.
  rewrite (conj_Creal (rM _ _)) dbl_div //; last by have := nz i; rewrite mxE.
  by rewrite /x (Creal_ReP _ (rM _ _)).
Qed.
Lemma two_iIm (z : C) : ('i * 'Im z) + ('i * 'Im z) = z - z^*.
Proof. by rewrite {3 4}[z]Crect conjC_rect ?Creal_Re ?Creal_Im // opprB [RHS]addrC addrA subrK. Qed.
Lemma iIm_conj (z : C) : ('i * 'Im z)^* = - ('i * 'Im z).
Proof. by rewrite rmorphM conjCi mulNr; congr (- (_ * _)); apply/CrealP; exact: Creal_Im. Qed.
Lemma Im_iReal (x : C) : x \is Num.real -> 'Im ('i * x) = x.
Proof. by move=> xr; rewrite ImMil; apply/Creal_ReP. Qed.
Lemma skew_atildeE n m (X Y : 'M[C]_(n, m)) (r : 'I_(minn n m).+1) : svd_ok np X ->
  (forall j, take_cols (np_svd np X).1.2 r 0 j != 0) ->
  skew_atilde np X Y r = pair_fit (-1) (trunc_mx r (sym_C np X Y)) (take_cols (np_svd np X).1.2 r).
Proof.
move=> [_ _ _ s0 _] nz; rewrite /skew_atilde; set M := sym_C np X Y; set s := (np_svd np X).1.2.
have sr j : s 0 j \is Num.real by apply: ger0_real.
apply/matrixP=> i j; rewrite !mxE -/M -/s [j == i]eq_sym; cbv zeta.
case: (ltngtP i j) => ij.
- have -> : (i == j) = false by apply/negbTE; rewrite neq_ltn ij.
  by rewrite ?eqxx rmorph0 mulr0n mulr0 subr0 oppr0 addr0 mulN1r.
- have -> : (i == j) = false by apply/negbTE; rewrite neq_ltn ij orbT.
  rewrite mulr0n mulr0 subr0 add0r rmorphM fmorphV /= mulN1r -[LHS]mulNr.
  congr (_ / _); last by rewrite rmorphD !rmorphX /= !(conj_Creal (sr _)) addrC.
  by rewrite rmorphD rmorphN !rmorphM /= !(conj_Creal (sr _)) conjCK opprD opprK addrC.
- move/val_inj: ij => <-; rewrite !eqxx mulr1n.
  set x := 'Im _ / _; have xr : x \is Num.real by rewrite realM ?Creal_Im ?realV.
  have -> : ('i * x)^* = - ('i * x) by rewrite rmorphM /= conjCi (conj_Creal xr) mulNr.
  rewrite (Im_iReal xr) opprK subrr addr0.
  have -> : -1 * (s 0 (widen_ord (leq_ord r) i) * (M (widen_ord (leq_ord r) i) (widen_ord (leq_ord r) i))^*) +
     s 0 (widen_ord (leq_ord r) i) * M (widen_ord (leq_ord r) i) (widen_ord (leq_ord r) i) =
     s 0 (widen_ord (leq_ord r) i) * ('i * 'Im (M (widen_ord (leq_ord r) i) (widen_ord (leq_ord r) i)) +
                                      'i * 'Im (M (widen_ord (leq_ord r) i) (widen_ord (leq_ord r) i))).
    by rewrite two_iIm mulrBr mulN1r addrC.
  rewrite dbl_div; last by have := nz i; rewrite mxE.
  by rewrite /x mulrA.
Qed.

Section SymBest.
Variables (n m : nat) (X Y : 'M[C]_(n, m)) (r : 'I_(minn n m).+1).
Let U := take_cols (np_svd np X).1.1 r.
Let s := take_cols (np_svd np X).1.2 r.
Let V := take_cols (adj (np_svd np X).2) r.
Hypothesis HS : svd_ok np X.
Hypothesis nz : forall j, s 0 j != 0.
Lemma s_pos j : 0 < s 0 j.
Proof. by case: HS => _ _ _ s0 _; rewrite lt_def nz /s mxE s0. Qed.
Lemma reduced_best (e : C) : e^* = e -> e * e = 1 ->
  best (fun A => adj A = e *: A) (adj U *m X) (adj U *m Y) (pair_fit e (trunc_mx r (sym_C np X Y)) s).
Proof.
move=> er ee.
have HX : adj U *m X = diag_mx s *m adj V by rewrite /U /s /V !take_colsE; exact: (trunc_UX (leq_ord r) HS).
have HV : adj V *m adj (adj V) = 1%:M by rewrite adjK /V take_colsE; exact: (trunc_VV (leq_ord r) HS).
rewrite HX; apply: (best_rows HV); rewrite adjK sym_C_trunc; apply: pair_best => //.
exact: s_pos.
Qed.
Lemma skew_best : best (@skew_hermitian C r) (adj U *m X) (adj U *m Y) (skew_atilde np X Y r).
Proof.
rewrite skew_atildeE //; have [] := @reduced_best (-1); rewrite ?rmorphN1 ?mulN1r ?opprK //.
move=> h1 h2; split; first by rewrite /skew_hermitian h1 scaleN1r.
by move=> B hB; apply: h2; rewrite scaleN1r.
Qed.
Lemma sym_best : real_mx (sym_C np X Y) -> best (@hermitian C r) (adj U *m X) (adj U *m Y) (sym_atilde np X Y r).
Proof.
move=> rM; rewrite sym_atildeE //; have [] := @reduced_best 1; rewrite ?rmorph1 ?mulr1 //.
move=> h1 h2; split; first by rewrite /hermitian h1 scale1r.
by move=> B hB; apply: h2; rewrite scale1r.
Qed.
End SymBest.

(** real data and a real decomposition give a real reduced problem *)
Lemma real_mul a b c (A : 'M[C]_(a, b)) (B : 'M[C]_(b, c)) : real_mx A -> real_mx B -> real_mx (A *m B).
Proof. by move=> hA hB i j; rewrite mxE rpred_sum // => k _; rewrite rpredM. Qed.
Lemma real_adj a b (A : 'M[C]_(a, b)) : real_mx A -> real_mx (adj A).
Proof. by move=> hA i j; rewrite adjE conj_Creal. Qed.
Lemma real_sym_C n m (X Y : 'M[C]_(n, m)) : real_mx Y -> real_mx (np_svd np X).1.1 -> real_mx (np_svd np X).2 ->
  real_mx (sym_C np X Y).
Proof.
rewrite /sym_C; case: (np_svd np X) => [[U s] Vh] /= hY hU hV.
by apply: real_mul (real_adj hV); apply: real_mul hY; apply: real_adj.
Qed.
End Proofs.
