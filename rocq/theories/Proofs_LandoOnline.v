(** * LANDO: the loop over the snapshots, and recursive least squares *)
From mathcomp Require Import all_ssreflect all_algebra.
From Verif Require Import Py LinAlg Model_Operator Spec_Operator Model_Lando Spec_Lando Proofs_Lando Proofs_LandoDict.
Set Implicit Arguments. Unset Strict Implicit. Unset Printing Implicit Defensive.
Import Order.TTheory GRing.Theory Num.Theory.
Local Open Scope ring_scope.

Section Sums.
Variables (C : numClosedFieldType) (n : nat).
Implicit Types (cs : seq (nat -> C)) (ys : seq 'cV[C]_n).
Definition gram_of m cs : 'M[C]_m := \sum_(c <- cs) cvec m c *m adj (cvec m c).
Definition corr_of m ys cs : 'M[C]_(n, m) := \sum_(p <- zip ys cs) p.1 *m adj (cvec m p.2).

Lemma cvec_coeffs m (c : 'cV[C]_m) : cvec m (coeffs c) = c.
Proof. by apply/matrixP => i j; rewrite mxE /coeffs valK !ord1. Qed.
Lemma cvec_old m (c : nat -> C) : (forall i, (m <= i)%N -> c i = 0) -> cvec (m + 1) c = col_mx (cvec m c) 0.
Proof.
move=> H; apply/matrixP => i j; rewrite mxE; case: (split_ordP i) => i' ->; rewrite ?col_mxEu ?col_mxEd !mxE //=.
by rewrite H // leq_addr.
Qed.
Lemma cvec_place m : cvec (m + 1) (place C m) = col_mx 0 1%:M.
Proof.
apply/matrixP => i j; rewrite mxE /place; case: (split_ordP i) => i' ->; rewrite ?col_mxEu ?col_mxEd !mxE /=.
  by rewrite (ltn_eqF (ltn_ord i')).
by rewrite !ord1 /= addn0 eqxx.
Qed.
Lemma cvec1 : cvec 1 (place C 0) = 1%:M.
Proof. by apply/matrixP => i j; rewrite !mxE !ord1. Qed.

Lemma gram_rcons m cs c : gram_of m (rcons cs c) = gram_of m cs + cvec m c *m adj (cvec m c).
Proof. by rewrite /gram_of -cats1 big_cat big_seq1. Qed.
Lemma corr_rcons m ys cs y c : size ys = size cs -> corr_of m (rcons ys y) (rcons cs c) = corr_of m ys cs + y *m adj (cvec m c).
Proof. by move=> S; rewrite /corr_of -!cats1 zip_cat // big_cat big_seq1. Qed.
(** no coefficient from the place [m] on *)
Definition vanish m cs : Prop := forall j i, (m <= i)%N -> nth (fun=> 0) cs j i = 0.
Lemma vanish_rcons m cs c : vanish m (rcons cs c) <-> vanish m cs /\ forall i, (m <= i)%N -> c i = 0.
Proof.
split=> [H | [H1 H2] j i L].
  split=> [j i L | i L]; last by have := H (size cs) i L; rewrite nth_rcons ltnn eqxx.
  have [Lj | Lj] := ltnP j (size cs); last by rewrite nth_default.
  by have := H j i L; rewrite nth_rcons Lj.
rewrite nth_rcons; case: ifP => _; first exact: H1.
by case: ifP => _ //; apply: H2.
Qed.
Lemma gram_grow m cs : vanish m cs -> gram_of (m + 1) cs = block_mx (gram_of m cs) 0 0 0.
Proof.
move=> V; rewrite /gram_of !(big_nth (fun=> 0)).
rewrite (eq_bigr (fun i => block_mx (cvec m (nth (fun=> 0) cs i) *m adj (cvec m (nth (fun=> 0) cs i))) 0 0 0)); last first.
  move=> i _; rewrite cvec_old; last by move=> j L; apply: V.
  by rewrite adj_colm adj0 mul_col_row !mul0mx mulmx0.
elim/big_rec2: _ => [|i a b _ ->]; first by rewrite block_mx0.
by rewrite add_block_mx !addr0.
Qed.
Lemma corr_grow m ys cs : size ys = size cs -> vanish m cs -> corr_of (m + 1) ys cs = row_mx (corr_of m ys cs) 0.
Proof.
move=> Sz V; rewrite /corr_of !(big_nth (0, fun=> 0)).
rewrite (eq_bigr (fun i => row_mx ((nth (0, fun=> 0) (zip ys cs) i).1 *m adj (cvec m (nth (0, fun=> 0) (zip ys cs) i).2)) 0)); last first.
  move=> i _; rewrite nth_zip //= cvec_old; last by move=> j L; apply: V.
  by rewrite adj_colm adj0 mul_mx_row mulmx0.
elim/big_rec2: _ => [|i a b _ ->]; first by rewrite row_mx0.
by rewrite add_row_mx !addr0.
Qed.
Lemma gram_herm m cs : adj (gram_of m cs) = gram_of m cs.
Proof.
rewrite /gram_of; elim: cs => [|c cs IH]; first by rewrite !big_nil adj0.
by rewrite !big_cons adjD IH adjM adjK.
Qed.
Lemma gram_ge0 m cs (v : 'cV[C]_m) : 0 <= (adj v *m gram_of m cs *m v) 0 0.
Proof.
rewrite /gram_of; elim: cs => [|c cs IH]; first by rewrite big_nil mulmx0 mul0mx mxE.
rewrite big_cons mulmxDr mulmxDl mxE addr_ge0 // !mulmxA -mulmxA.
rewrite -[adj v *m _]adjK adjM adjK mxE big_ord1 !mxE mulrC; exact: mul_conjC_ge0.
Qed.

Lemma frob2_add a b (A B : 'M[C]_(a, b)) : frob2 (A + B) = frob2 A + frob2 B + (\tr (A *m adj B) + (\tr (A *m adj B))^*).
Proof.
have T (M : 'M[C]_a) : (\tr M)^* = \tr (adj M) by rewrite /mxtrace rmorph_sum; apply: eq_bigr => i _; rewrite !mxE.
rewrite T adjM adjK !frob2_tr adjD mulmxDl !mulmxDr !mxtraceD -!addrA; congr (_ + _).
by rewrite [RHS]addrC addrA.
Qed.

(** the normal equations give the minimum *)
Lemma normal_min m ys cs (M0 M : 'M[C]_(n, m)) : size ys = size cs -> M0 *m gram_of m cs = corr_of m ys cs ->
  \sum_(p <- zip ys cs) frob2 (p.1 - M0 *m cvec m p.2) <= \sum_(p <- zip ys cs) frob2 (p.1 - M *m cvec m p.2).
Proof.
move=> Sz N.
have gz : gram_of m cs = \sum_(p <- zip ys cs) cvec m p.2 *m adj (cvec m p.2).
  by rewrite /gram_of -{1}[cs](unzip2_zip (s := ys)) ?Sz // big_map.
have cross : \sum_(p <- zip ys cs) (p.1 - M0 *m cvec m p.2) *m adj (cvec m p.2) = 0.
  rewrite (eq_bigr (fun p => p.1 *m adj (cvec m p.2) - M0 *m (cvec m p.2 *m adj (cvec m p.2)))).
    by rewrite sumrB -mulmx_sumr -gz N subrr.
  by move=> p _; rewrite mulmxBl mulmxA.
have cr2 : \sum_(p <- zip ys cs) \tr ((p.1 - M0 *m cvec m p.2) *m adj ((M0 - M) *m cvec m p.2)) = 0.
  have := congr1 (fun A : 'M[C]_(n, m) => \tr (A *m adj (M0 - M))) cross; rewrite /= mul0mx mxtrace0 mulmx_suml raddf_sum /= => H; rewrite -[RHS]H.
  by apply: eq_bigr => p _; rewrite adjM mulmxA.
have -> : \sum_(p <- zip ys cs) frob2 (p.1 - M *m cvec m p.2) =
  \sum_(p <- zip ys cs) frob2 (p.1 - M0 *m cvec m p.2) + \sum_(p <- zip ys cs) frob2 ((M0 - M) *m cvec m p.2).
  rewrite (eq_bigr (fun p => frob2 (p.1 - M0 *m cvec m p.2) + frob2 ((M0 - M) *m cvec m p.2) +
    (\tr ((p.1 - M0 *m cvec m p.2) *m adj ((M0 - M) *m cvec m p.2)) +
     (\tr ((p.1 - M0 *m cvec m p.2) *m adj ((M0 - M) *m cvec m p.2)))^*))); last first.
    by move=> p _; rewrite -frob2_add; congr frob2; rewrite mulmxBl addrA subrK.
  by rewrite !big_split /= -rmorph_sum cr2 conjC0 !addr0.
by rewrite ler_addl sumr_ge0 // => p _; apply: frob2_ge0.
Qed.
End Sums.

Section Loop.
Variables (C : numClosedFieldType) (np : numpy C) (n : nat) (ex : C -> C) (ks : kspec C n) (cplx : bool).
Local Notation k := (kernel ex ks).
Hypothesis PK : pos_kernel k.
Hypothesis LS : forall a b (M : 'M[C]_(a, b)) y, lstsq_ok np M y.
Local Notation absorb := (absorb np ex ks cplx).
Local Notation sg := (existT (fun m => 'M[C]_(n, m))).

Lemma cols_rcons (D : seq 'cV[C]_n) x : sg _ (cols (rcons D x)) = sg (size D + 1)%N (row_mx (cols D) x).
Proof.
have Sz : size (rcons D x) = (size D + 1)%N by rewrite size_rcons addn1.
have -> : cols (rcons D x) = castmx (erefl, esym Sz) (row_mx (cols D) x).
  apply/matrixP => i j; rewrite castmxE mxE nth_rcons /= cast_ord_id.
  case: (split_ordP (cast_ord (esym (esym Sz)) j)) => j' Ej; rewrite Ej ?row_mxEl ?row_mxEr;
    have /= -> := congr1 (@nat_of_ord _) Ej.
    by rewrite mxE.
  by rewrite !ord1 addn0 eqxx.
by case: _ / (esym Sz).
Qed.
Lemma cols1 (x : 'cV[C]_n) : cols [:: x] = x.
Proof. by apply/matrixP => i j; rewrite mxE !ord1. Qed.
Lemma cols_real (D : seq 'cV[C]_n) : (forall x, x \in D -> realm x) -> realm (cols D).
Proof. by move=> H i j; rewrite mxE; apply: H; rewrite mem_nth. Qed.

Lemma coded_learns tol xs D cs : coded k tol xs D cs -> learns k tol xs D.
Proof.
elim=> [x | xs' D' cs' x d _ IH Hd L | xs' D' cs' x d c _ IH Hd L _]; first exact: L_first.
  exact: L_take IH Hd L.
exact: L_skip IH Hd L.
Qed.
Lemma coded_vanish tol xs D cs : coded k tol xs D cs -> vanish (size D) cs.
Proof.
elim=> [x | xs' D' cs' x d _ IH _ _ | xs' D' cs' x d c _ IH _ _ _].
- by move=> [|j] i /=; rewrite ?nth_nil //; case: i.
- apply/vanish_rcons; split=> [j i L | i L].
    by apply: IH; apply: leq_trans L; rewrite size_rcons.
  by rewrite /place; case: eqP => // E; rewrite E size_rcons ltnn in L.
apply/vanish_rcons; split=> // i L; rewrite /coeffs insubF //; exact: leq_gtF.
Qed.
Lemma coded_size tol xs D cs : coded k tol xs D cs -> size cs = size xs.
Proof. by elim=> // *; rewrite !size_rcons; congr _.+1. Qed.

(** the state after the snapshots [xs] with the targets [ys] *)
Record holds (tol : C) (xs ys : seq 'cV[C]_n) (o : lop C n) : Prop := Holds {
  ho_chol : chol_inv ex ks o;
  ho_dict : exists D, learns k tol xs D /\ sg _ (lo_D o) = sg _ (cols D) }.
Record holds_rls (tol : C) (xs ys : seq 'cV[C]_n) (o : lop C n) D cs : Prop := HoldsRls {
  hr_chol : chol_inv ex ks o; hr_coded : coded k tol xs D cs; hr_size : size ys = size xs;
  hr_dict : sg _ (lo_D o) = sg _ (cols D);
  hr_P : lo_P o *m gram_of (lo_m o) cs = 1%:M;
  hr_W : lo_W o *m kernels k (lo_D o) (lo_D o) = corr_of (lo_m o) ys cs *m lo_P o }.

Lemma sg_dist (D1 D2 : {m & 'M[C]_(n, m)}) x d : D1 = D2 -> is_dist2 k (projT2 D1) x d -> is_dist2 k (projT2 D2) x d.
Proof. by move->. Qed.
Lemma sg_row (D1 D2 : {m & 'M[C]_(n, m)}) (x : 'cV[C]_n) : D1 = D2 ->
  sg _ (row_mx (projT2 D1) x) = sg _ (row_mx (projT2 D2) x).
Proof. by move->. Qed.

Lemma dist2_ge0 m (D : 'M[C]_(n, m)) x d : realm D -> realm x -> is_dist2 k D x d -> 0 <= d.
Proof. by move=> RD Rx [[c <-] _]; apply: (pk_pos PK); apply: realm_row. Qed.
Lemma sg_apart (D1 D2 : {m & 'M[C]_(n, m)}) x (c : 'cV[C]_(projT1 D1)) d : D1 = D2 -> apart k (projT2 D1) x c = d ->
  exists c' : 'cV[C]_(projT1 D2), apart k (projT2 D2) x c' = d /\ coeffs c' = coeffs c.
Proof. by move=> E; subst D2; exists c. Qed.
Lemma by_cols a b (A B : 'M[C]_(a, b)) : (forall j, col j A = col j B) -> A = B.
Proof. by move=> H; apply/matrixP => i j; have /matrixP/(_ i 0) := H j; rewrite !mxE. Qed.
Lemma lstsq_mx_unit m p (A : 'M[C]_m) (H : 'M[C]_(m, p)) : A \in unitmx -> A *m lstsq_mx np A H = H.
Proof.
move=> U; apply: by_cols => j; rewrite colE -mulmxA -colE; suff -> : col j (lstsq_mx np A H) = np_lstsq np A (col j H).
  exact: lstsq_unit (LS _ _).
by apply/matrixP => i l; rewrite !mxE !ord1.
Qed.
Lemma lstsq_mxP a b p (A : 'M[C]_(a, b)) (H : 'M[C]_(a, p)) : is_lstsq A H (lstsq_mx np A H).
Proof.
rewrite /is_lstsq; apply: by_cols => j; rewrite ![col j _]colE -!mulmxA -!colE; suff -> : col j (lstsq_mx np A H) = np_lstsq np A (col j H).
  rewrite mulmxA; exact: LS.
by apply/matrixP => i l; rewrite !mxE !ord1.
Qed.
Lemma begin_holds tol online x y : realm x -> k x x != 0 -> holds tol [:: x] [:: y] (begin_with ex ks online (x, y)).
Proof.
move=> Hx N; split; first exact: beginP.
by exists [:: x]; split; [exact: L_first | rewrite cols1].
Qed.
Lemma absorb_holds tol online xs ys o x y : 0 <= tol -> realm x -> holds tol xs ys o ->
  holds tol (rcons xs x) (rcons ys y) (absorb online tol o (x, y)).
Proof.
move=> t0 Hx [I [D [L E]]]; have [d [Hd I' Ed]] := absorbP cplx PK LS online y I Hx t0.
split=> //; have Hd' := sg_dist E Hd; rewrite {}Ed; case T: (tol < d).
  exists (rcons D x); split; first exact: L_take L Hd' T.
  by rewrite cols_rcons; exact: (sg_row x E).
exists D; split=> //; apply: L_skip L Hd' _.
by rewrite real_leNgt ?T // ger0_real // (dist2_ge0 (ci_D I) Hx Hd).
Qed.
Lemma fold_holds tol online xs ys o l : 0 <= tol -> (forall p, p \in l -> realm p.1) -> holds tol xs ys o ->
  holds tol (xs ++ unzip1 l) (ys ++ unzip2 l) (foldl (absorb online tol) o l).
Proof.
move=> t0; elim: l xs ys o => [|[x y] l IH] xs ys o R H /=; first by rewrite !cats0.
rewrite -!cat_rcons; apply: IH; first by move=> p I; apply: R; rewrite in_cons I orbT.
by apply: absorb_holds => //; apply: (R (x, y)); rewrite mem_head.
Qed.

(** ** the online mode *)
Lemma begin_rls tol x y : realm x -> k x x != 0 ->
  holds_rls tol [:: x] [:: y] (begin_with ex ks true (x, y)) [:: x] [:: place C 0].
Proof.
move=> Hx N; split=> //=; first exact: beginP.
- exact: D_first.
- by rewrite cols1.
- by rewrite /gram_of big_seq1 cvec1 adj1 !mulmx1.
by rewrite sqrtCK kernels11 /corr_of /= big_seq1 cvec1 adj1 !mulmx1 mul_mx_scalar scalerA mulfV // scale1r.
Qed.

Lemma absorb_rls tol xs ys o x y D cs : 0 <= tol -> realm x -> holds_rls tol xs ys o D cs ->
  exists D' cs', holds_rls tol (rcons xs x) (rcons ys y) (absorb true tol o (x, y)) D' cs'.
Proof.
move=> t0 Hx [I L Sz E HP HW].
have Em : lo_m o = size D by exact: (congr1 (@projT1 _ _) E).
have Sc : size ys = size cs by rewrite (coded_size L).
have Vn : vanish (lo_m o) cs by rewrite Em; exact: coded_vanish L.
have I' : chol_inv ex ks (absorb true tol o (x, y)) by have [d []] := absorbP cplx PK LS true y I Hx t0.
move: I'; rewrite /Model_Lando.absorb [(x, y).1]/= [(x, y).2]/=.
case Es: (cholesky_step _ _ _ _ _) => [[[[kt s] pi] kxx] delta]; have F := stepP PK LS I Hx Es.
rewrite (ger0_norm (sf_ge0 F)).
have Hd' := sg_dist E (sf_dist F).
have Epk : adj pi *m kernels k (lo_D o) (lo_D o) = adj kt.
  by rewrite -(sf_K F) adjM kernels_adj //; case: I.
case T: (tol < delta) => I'.
  exists (rcons D x), (rcons cs (place C (size D))); split=> //=.
  - exact: D_take L Hd' T.
  - by rewrite !size_rcons Sz.
  - by rewrite cols_rcons; exact: (sg_row x E).
  - rewrite gram_rcons -Em gram_grow // cvec_place adj_colm adj0 adj1 mul_col_row !mulmx0 mulmx1.
    rewrite add_block_mx !addr0 !add0r mulmx_block !mulmx0 !mul0mx !addr0 HP mulmx1.
    by rewrite add0r mulmx1 -scalar_mx_block.
  rewrite corr_rcons // corr_grow // -Em cvec_place adj_colm adj0 adj1 mul_mx_row mulmx0 mulmx1 add_row_mx addr0 add0r.
  rewrite mul_row_block !mulmx0 addr0 add0r mulmx1 -HW kernels_row !kernels_col mul_row_col !mul_mx_row add_row_mx kernels11.
  set u := delta^-1 *: _; rewrite !mulmxBl -!mulmxA Epk.
  have Ex : kernels k x (lo_D o) = adj kt by rewrite (sf_kt F) kernels_adj //; case: I.
  rewrite Ex subrK -(sf_kt F); congr row_mx.
  have -> : adj pi *m kt = (kxx - delta)%:M.
    rewrite -[adj pi *m kt]adjK adjM adjK [adj kt *m pi]mx11_scalar adj_scalar; congr (_%:M).
    rewrite (sf_delta F) opprB addrC subrK conj_Creal //; apply: realm_mul; last exact: sf_rpi F.
    by rewrite (sf_kt F) kernels_adj //; [apply: kernels_real => //; case: I | case: I].
  rewrite -(sf_kxx F) !mul_mx_scalar -addrA -scaleNr -scalerDl opprB subrK scalerA divff; last by rewrite gt_eqF // (le_lt_trans t0).
  by rewrite scale1r addrC subrK.
have [pi' [Ap Ec]] := sg_apart E (sf_apart F).
set a := (adj pi *m lo_P o *m pi) 0 0; set h := (1 + a)^-1 *: _; set G := gram_of (lo_m o) cs.
have Ph : adj (lo_P o) = lo_P o.
  have H1 : G *m adj (lo_P o) = 1%:M by rewrite /G -(gram_herm _ cs) -adjM HP adj1.
  by rewrite -[LHS]mul1mx -HP -mulmxA H1 mulmx1.
have a0 : 0 <= a.
  have -> : a = (adj (lo_P o *m pi) *m G *m (lo_P o *m pi)) 0 0.
    by rewrite adjM Ph -[adj pi *m _ *m G]mulmxA HP mulmx1 mulmxA.
  exact: gram_ge0.
have a1 : 1 + a != 0 by rewrite (gt_eqF (ltr_paddr a0 ltr01)).
have hp : h *m pi = (a / (1 + a))%:M.
  by rewrite -scalemxAl [adj pi *m _ *m _]mx11_scalar -/a scale_scalar_mx mulrC.
have hG : h *m (G + pi *m adj pi) = adj pi.
  rewrite mulmxDr mulmxA hp mul_scalar_mx -scalemxAl -mulmxA HP mulmx1 -scalerDl -{1}[_^-1]mul1r -mulrDl mulfV // scale1r //.
have ph : adj pi *m lo_P o *m (1%:M - pi *m h) = h.
  rewrite mulmxBr mulmx1 mulmxA [adj pi *m _ *m pi]mx11_scalar -/a mul_scalar_mx.
  have -> : adj pi *m lo_P o = (1 + a) *: h by rewrite scalerA mulfV // scale1r.
  by rewrite -scalerBl addrK scale1r.
exists D, (rcons cs (coeffs pi')); split=> //=.
- by apply: D_skip L Hd' _ Ap; rewrite real_leNgt ?T // ger0_real // (sf_ge0 F).
- by rewrite !size_rcons Sz.
- rewrite gram_rcons Ec cvec_coeffs -/G mulmxBr mulmx1 mulmxBl -!mulmxA hG mulmxDr HP addrK //.
rewrite corr_rcons // Ec cvec_coeffs [RHS]mulmxDl [corr_of _ _ _ *m _]mulmxA -HW [X in _ = X + _]mulmxBr mulmx1 mulmxDl -addrA; congr (_ + _).
rewrite -[y *m _ *m _]mulmxA [adj pi *m _]mulmxA ph mulmxA -[lo_W o *m _ *m pi]mulmxA (sf_K F).
rewrite [RHS]addrC -mulmxBl; set e := (y - _) *m h.
have Uk : lo_C o *m adj (lo_C o) \in unitmx by rewrite unitmx_mul (ci_unit I) adj_unit // (ci_unit I).
have := @lstsq_mx_unit _ _ (lo_C o *m adj (lo_C o))^T e^T; rewrite unitmx_tr => /(_ Uk) /(congr1 (@trmx _ _ _)).
by rewrite trmx_mul !trmxK (ci_chol I).
Qed.
Lemma fold_rls tol xs ys o D cs l : 0 <= tol -> (forall p, p \in l -> realm p.1) -> holds_rls tol xs ys o D cs ->
  exists D' cs', holds_rls tol (xs ++ unzip1 l) (ys ++ unzip2 l) (foldl (absorb true tol) o l) D' cs'.
Proof.
move=> t0; elim: l xs ys o D cs => [|[x y] l IH] xs ys o D cs R H /=; first by rewrite !cats0; exists D, cs.
have [|D' [cs' H']] := @absorb_rls tol xs ys o x y D cs t0 _ H; first by apply: (R (x, y)); rewrite mem_head.
rewrite -!cat_rcons; apply: IH H'; by move=> p I; apply: R; rewrite in_cons I orbT.
Qed.
End Loop.
