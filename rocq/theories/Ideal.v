(** * The contracts of the numerical routines can all be met

    [ideal] is an instance of the numerical library of Model_Operator.v for which every contract of
    Spec_Operator.v holds for every argument (sqrtm: for every diagonalisable argument; NumPy's eig returns
    a basis of eigenvectors whenever there is one).  So no theorem that assumes contracts is empty because
    of them. *)
From mathcomp Require Import all_ssreflect all_fingroup all_algebra.
From Verif Require Import Py LinAlg Witness Model_Operator Spec_Operator Proofs_Operator.
From Verif Require Model_Utils.
Set Implicit Arguments. Unset Strict Implicit. Unset Printing Implicit Defensive.
Import Order.TTheory GRing.Theory Num.Theory.
Local Open Scope ring_scope.

Section Ideal.
Variable C : numClosedFieldType.

(** ** A unitary matrix with a given first column *)
Definition unitary n (Q : 'M[C]_n) := adj Q *m Q = 1%:M.
Lemma unitary_r n (Q : 'M[C]_n) : unitary Q -> Q *m adj Q = 1%:M.
Proof. exact: mulmx1C. Qed.

Lemma adj_col_sqr n (u : 'cV[C]_n) : adj u *m u = (\sum_i `|u i 0| ^+ 2)%:M.
Proof.
apply/matrixP=> i j; rewrite !ord1 !mxE mulr1n; apply: eq_bigr=> k _.
by rewrite adjE normCKC.
Qed.

Lemma complete n (v : 'cV[C]_n.+1) : adj v *m v = 1%:M -> exists Q : 'M[C]_n.+1, unitary Q /\ col ord0 Q = v.
Proof.
move=> Hv.
pose x0 := v ord0 0.
pose a := if x0 == 0 then 1 else x0 / `|x0|.
have Ha : `|a| = 1.
  rewrite /a; case: eqP=> [_|/eqP H]; first by rewrite normr1.
  by rewrite normrM normfV normr_id divff // normr_eq0.
have Hx0 : x0 = a * `|x0|.
  rewrite /a; case: eqP=> [->|/eqP H]; first by rewrite normr0 mulr0.
  by rewrite divfK // normr_eq0.
have Haa : a^* * a = 1 by rewrite mulrC -normCK Ha expr1n.
pose e0 : 'cV[C]_n.+1 := delta_mx ord0 0.
pose u := v + a *: e0.
pose c := 2%:R * (1 + `|x0|).
have Hc0 : c != 0.
  have h1 : 0 < 1 + `|x0| by rewrite ltr_paddr.
  by rewrite mulf_neq0 // ?pnatr_eq0 // gt_eqF.
have e0v : adj v *m e0 = (x0^*)%:M.
  apply/matrixP=> i j; rewrite !ord1 !mxE mulr1n (bigD1 ord0) //= big1 => [|k Hk].
    by rewrite adjE !mxE !eqxx mulr1 addr0.
  by rewrite !mxE (negbTE Hk) mulr0.
have ve0 : adj e0 *m v = x0%:M.
  by apply: (@adj_inj C); rewrite adjM adjK e0v; apply/matrixP=> i j; rewrite !ord1 adjE !mxE !mulr1n.
have e0e0 : adj e0 *m e0 = 1%:M.
  rewrite adj_col_sqr (bigD1 ord0) //= big1 => [|k Hk]; rewrite !mxE ?eqxx ?normr1 ?expr1n ?addr0 //.
  by rewrite (negbTE Hk) normr0 expr0n.
have x0c : x0^* = a^* * `|x0| by rewrite {1}Hx0 rmorphM /= [X in _ * X](@conj_Creal _ `|x0|) ?normr_real.
have ue0 : adj u *m e0 = (a^* * (1 + `|x0|))%:M.
  rewrite adjD adjZ mulmxDl -scalemxAl e0v e0e0 x0c.
  by rewrite scale_scalar_mx mulr1 -raddfD /= addrC mulrDr mulr1.
have uv : adj u *m v = (1 + `|x0|)%:M.
  rewrite adjD adjZ mulmxDl -scalemxAl Hv ve0 scale_scalar_mx -raddfD /=.
  by rewrite [x0 in a^* * x0]Hx0 mulrA Haa mul1r.
have uu : adj u *m u = c%:M.
  rewrite {2}/u mulmxDr -scalemxAr ue0 scale_scalar_mx uv -raddfD /= mulrA [a * _]mulrC Haa mul1r.
  by rewrite /c mulr_natl mulr2n.
pose t := 2%:R / c.
pose H : 'M[C]_n.+1 := 1%:M - t *: (u *m adj u).
have tR : t^* = t by rewrite conj_Creal // rpredM ?rpredV ?rpredM ?rpredD ?rpred1 ?normr_real ?rpred_nat.
have HH : adj H *m H = 1%:M.
  have -> : adj H = H by rewrite /H adjB adj1 adjZ adjM adjK tR.
  rewrite /H mulmxBr mulmx1 mulmxBl mul1mx -scalemxAl -scalemxAr scalerA.
  have -> : u *m adj u *m (u *m adj u) = c *: (u *m adj u).
    by rewrite -mulmxA (mulmxA (adj u)) uu mul_scalar_mx -scalemxAr.
  rewrite scalerA -mulrA [t * c]divfK // mulr_natr mulr2n scalerDl opprB addrA.
  by rewrite [in X in X - _]addrA addrK subrK.
exists ((- a) *: H); split.
  by rewrite /unitary adjZ -scalemxAl -scalemxAr HH scalerA rmorphN mulrNN Haa scale1r.
rewrite colE -scalemxAl /H mulmxBl mul1mx -scalemxAl -mulmxA ue0 mul_mx_scalar scalerA.
have ht : t * (1 + `|x0|) = 1 by rewrite /t mulrAC -/c divff.
rewrite [t * _]mulrCA ht mulr1 scalerBr scalerA mulNr [a * _]mulrC Haa scaleN1r opprK scaleNr.
by rewrite /u addrC addrK.
Qed.

(** ** Eigenvectors *)
Lemma unitize n (v : 'cV[C]_n) : v != 0 -> exists c, c != 0 /\ adj (c *: v) *m (c *: v) = 1%:M.
Proof.
move=> Hv; pose s := \sum_i `|v i 0| ^+ 2.
have Hs : s != 0.
  have : frob2 v != 0 by rewrite frob2_eq0.
  by congr (_ != 0); apply: eq_bigr=> i _; rewrite big_ord1.
have Hp : 0 <= s by apply: sumr_ge0=> i _; rewrite exprn_ge0.
exists (sqrtC s)^-1; split; first by rewrite invr_eq0 sqrtC_eq0.
rewrite adjZ -scalemxAl -scalemxAr scalerA adj_col_sqr -/s scale_scalar_mx; congr (_%:M).
by rewrite fmorphV conj_Creal ?ger0_real ?sqrtC_ge0 // -invfM -expr2 sqrtCK mulVf.
Qed.
Lemma eig_vec n (A : 'M[C]_n.+1) : exists l (v : 'cV[C]_n.+1), adj v *m v = 1%:M /\ A *m v = l *: v.
Proof.
have /closed_rootP [l Hl] : size (char_poly A^T) != 1%N by rewrite size_char_poly.
move: Hl; rewrite -eigenvalue_root_char => /eigenvalueP [w Hw Nw].
have [|c [Hc Hu]] := @unitize _ w^T; first by rewrite -(inj_eq (@trmx_inj _ _ _)) trmxK trmx0.
exists l, (c *: w^T); split=> //.
by rewrite -scalemxAr -{1}(trmxK A) -trmx_mul Hw linearZ /= !scalerA mulrC.
Qed.

(** ** Singular value decomposition *)
Lemma top_pair n m (X : 'M[C]_(n.+1, m.+1)) : (m <= n)%N -> exists (u : 'cV[C]_n.+1) (v : 'cV[C]_m.+1) (s : C),
  [/\ adj u *m u = 1%:M, adj v *m v = 1%:M, 0 <= s, X *m v = s *: u & adj X *m u = s *: v].
Proof.
move=> Hmn; have [d [v [Hv Hd]]] := eig_vec (adj X *m X).
have E : adj (X *m v) *m (X *m v) = d%:M.
  by rewrite adjM -mulmxA (mulmxA (adj X)) Hd -scalemxAr Hv scale_scalar_mx mulr1.
have [Z|N] := eqVneq (X *m v) 0.
  have Hk : kermx (adj X)^T != 0.
    rewrite kermx_eq0 /row_free mxrank_tr neq_ltn.
    apply/orP; left; apply: leq_ltn_trans (_ : m < n.+1)%N; last by rewrite ltnS.
    have -> : \rank (adj X) = \rank X by rewrite /adj mxrank_tr mxrank_map.
    have : \rank (kermx X^T) != 0%N.
      apply/eqP=> /eqP; rewrite mxrank_eq0 => /eqP K.
      have : (v^T <= kermx X^T)%MS by apply/sub_kermxP; rewrite -trmx_mul Z trmx0.
      rewrite K submx0 => /eqP V0; move: Hv; rewrite -(trmxK v) V0 trmx0 mulmx0 => /matrixP /(_ 0 0).
      by rewrite !mxE /= => /esym /eqP; rewrite oner_eq0.
    rewrite mxrank_ker mxrank_tr subn_eq0 -ltnNge ltnS //.
  have [i Hi] : exists i, row i (kermx (adj X)^T) != 0.
    apply/existsP; move: Hk; apply: contraR; rewrite negb_exists => /forallP H.
    by apply/eqP/row_matrixP=> i; rewrite row0; have := H i; rewrite negbK => /eqP.
  have [|c [Hc Hu]] := @unitize _ (row i (kermx (adj X)^T))^T.
    by rewrite -(inj_eq (@trmx_inj _ _ _)) trmxK trmx0.
  exists (c *: (row i (kermx (adj X)^T))^T), v, 0; split=> //; first by rewrite Z scale0r.
  rewrite scale0r -scalemxAr -{1}(trmxK (adj X)) -trmx_mul -row_mul mulmx_ker row0 trmx0 scaler0 //.
have [c [Hc Hu]] := unitize N.
have Hcd : c^* * c * d = 1.
  move: Hu; rewrite adjZ -scalemxAl -scalemxAr scalerA E scale_scalar_mx => /matrixP /(_ 0 0).
  by rewrite !mxE /= !mulr1n.
have Hd0 : d != 0 by apply: contraTneq (oner_neq0 C) => D; rewrite -Hcd D mulr0 eqxx.
have Hdp : 0 <= d.
  move: E; rewrite adj_col_sqr => /matrixP /(_ 0 0); rewrite !mxE /= !mulr1n => <-.
  by apply: sumr_ge0=> i _; rewrite exprn_ge0.
have Hsd : sqrtC d != 0 by rewrite sqrtC_eq0.
exists ((sqrtC d)^-1 *: (X *m v)), v, (sqrtC d); split=> //.
- rewrite adjZ -scalemxAl -scalemxAr scalerA E scale_scalar_mx; congr (_%:M).
  by rewrite fmorphV conj_Creal ?ger0_real ?sqrtC_ge0 // -invfM -expr2 sqrtCK mulVf.
- by rewrite sqrtC_ge0.
- by rewrite scalerA divff // scale1r.
rewrite -scalemxAr mulmxA Hd scalerA; congr (_ *: _).
by rewrite -{2}(sqrtCK d) expr2 mulrA mulVf // mul1r.
Qed.

Definition presvd m n k (X : 'M[C]_(m, n)) (U : 'M[C]_(m, k)) (s : 'rV[C]_k) (Vh : 'M[C]_(k, n)) : Prop :=
  [/\ X = U *m diag_mx s *m Vh, adj U *m U = 1%:M, Vh *m adj Vh = 1%:M & forall j, 0 <= s 0 j].

Lemma adj_block m1 m2 n1 n2 (A : 'M[C]_(m1, n1)) (B : 'M[C]_(m1, n2)) (D : 'M[C]_(m2, n1)) (E : 'M[C]_(m2, n2)) :
  adj (block_mx A B D E) = block_mx (adj A) (adj D) (adj B) (adj E).
Proof. by rewrite /adj map_block_mx tr_block_mx. Qed.

Lemma diag_row_block k (a : 'rV[C]_1) (s : 'rV[C]_k) : diag_mx (row_mx a s) = block_mx (diag_mx a) 0 0 (diag_mx s).
Proof.
apply/matrixP=> i j; rewrite !mxE.
case: (split_ordP i)=> i' -> ; case: (split_ordP j)=> j' ->; rewrite ?mxE.
all: rewrite ?(unsplitK (inl _)) ?(unsplitK (inr _)) ?mxE //.
all: rewrite ?row_mxEl ?row_mxEr ?eq_lshift ?eq_rshift ?eq_lrshift ?eq_rlshift //.
Qed.

Lemma colM m n p (A : 'M[C]_(m, n)) (B : 'M[C]_(n, p)) j : col j (A *m B) = A *m col j B.
Proof. by rewrite !colE mulmxA. Qed.

Lemma presvd_unitary m n k (X : 'M[C]_(m, n)) (U : 'M[C]_(m, k)) s (Vh : 'M[C]_(k, n)) Q1 Q2 :
  presvd X U s Vh -> unitary Q1 -> unitary Q2 -> presvd (Q1 *m X *m adj Q2) (Q1 *m U) s (Vh *m adj Q2).
Proof.
move=> [E1 E2 E3 E4] U1 U2; split=> //; first by rewrite E1 !mulmxA.
- by rewrite adjM mulmxA -(mulmxA (adj U)) [adj Q1 *m Q1]U1 mulmx1.
- by rewrite adjM adjK mulmxA -(mulmxA Vh) [adj Q2 *m Q2]U2 mulmx1.
Qed.
Lemma presvd_block m n k (X : 'M[C]_(m, n)) (U : 'M[C]_(m, k)) s (Vh : 'M[C]_(k, n)) (a : C) :
  presvd X U s Vh -> 0 <= a ->
  presvd (block_mx (a%:M : 'M_1) 0 0 X) (block_mx (1%:M : 'M_1) 0 0 U) (row_mx (a%:M : 'M_1) s) (block_mx (1%:M : 'M_1) 0 0 Vh).
Proof.
move=> [E1 E2 E3 E4] Ha; split.
- rewrite diag_row_block !mulmx_block !(mulmx0, mul0mx, mul1mx, mulmx1, addr0, add0r) -E1.
  by congr block_mx; apply/matrixP=> i j; rewrite !ord1 !mxE.
- by rewrite adj_block adj1 !adj0 mulmx_block !(mulmx0, mul0mx, mulmx1, addr0, add0r) E2 -scalar_mx_block.
- by rewrite adj_block adj1 !adj0 mulmx_block !(mulmx0, mul0mx, mulmx1, addr0, add0r) E3 -scalar_mx_block.
move=> j; rewrite mxE; case: (splitP j)=> j' _ //; by rewrite mxE ord1 eqxx.
Qed.

Lemma svd_tall m n (X : 'M[C]_(n, m)) : (m <= n)%N -> exists (U : 'M[C]_(n, m)) s (Vh : 'M[C]_m), presvd X U s Vh.
Proof.
elim: m n X=> [|m IH] n X Hmn.
  exists 0, 0, 0; split; try by move=> [].
  - by rewrite [X]thinmx0 [RHS]thinmx0.
  - by rewrite [LHS]thinmx0 [RHS]thinmx0.
  - by rewrite [LHS]thinmx0 [RHS]thinmx0.
case: n X Hmn=> // n X Hmn.
have [u [v [s [Hu Hv Hs HX HX']]]] := top_pair X Hmn.
have [Q1 [U1 C1]] := complete Hu; have [Q2 [U2 C2]] := complete Hv.
pose Y : 'M[C]_(1 + n, 1 + m) := adj Q1 *m X *m Q2.
have Hl i : Y i ord0 = s * (i == ord0)%:R.
  have : col ord0 Y = s *: col ord0 (1%:M : 'M_n.+1).
    by rewrite /Y (colM (adj Q1 *m X)) C2 -mulmxA HX -scalemxAr -C1 -colM [adj Q1 *m Q1]U1.
  by move/matrixP/(_ i 0); rewrite !mxE.
have Hr j : Y ord0 j = s * (j == ord0)%:R.
  have : col ord0 (adj Y) = s *: col ord0 (1%:M : 'M_m.+1).
    by rewrite /Y !adjM adjK mulmxA (colM (adj Q2 *m adj X)) C1 -mulmxA HX' -scalemxAr -C2 -colM [adj Q2 *m Q2]U2.
  move/matrixP/(_ j 0); rewrite [in LHS]mxE adjE 4!mxE => /(congr1 (@conjC C)); rewrite conjCK => ->.
  by rewrite rmorphM conj_Creal ?ger0_real //; case: (j == ord0); rewrite ?conjC1 ?conjC0.
have EY : adj Q1 *m X *m Q2 = Y by [].
clearbody Y.
have L k : lshift k (0 : 'I_1) = ord0 :> 'I_(1 + k) by apply/val_inj.
have HY : Y = block_mx (s%:M : 'M_1) 0 0 (drsubmx Y).
  rewrite -{1}(submxK Y); congr block_mx; apply/matrixP=> i j; rewrite !mxE.
  - by rewrite !ord1 !L Hl eqxx mulr1.
  - by rewrite ord1 L Hr (_ : rshift 1 j == ord0 = false) ?mulr0.
  - by rewrite (ord1 j) L Hl (_ : rshift 1 i == ord0 = false) ?mulr0.
have [U' [s' [V' [E1 E2 E3 E4]]]] := IH n (drsubmx Y) Hmn.
have E : X = Q1 *m Y *m adj Q2.
  by rewrite -EY !mulmxA (unitary_r U1) mul1mx -mulmxA (unitary_r U2) mulmx1.
have P : presvd Y (block_mx (1%:M : 'M_1) 0 0 U') (row_mx (s%:M : 'M_1) s') (block_mx (1%:M : 'M_1) 0 0 V').
  by rewrite HY; apply: presvd_block.
by eexists; eexists; eexists; rewrite E; exact: (presvd_unitary P).
Qed.

Lemma svd_sort m n k (X : 'M[C]_(m, n)) (U : 'M[C]_(m, k)) s (Vh : 'M[C]_(k, n)) : presvd X U s Vh ->
  exists U' s' Vh', @is_svd C m n k X U' s' Vh'.
Proof.
move=> [E1 E2 E3 E4].
pose e (x y : C * 'cV[C]_k) := key_abs y.1 x.1.
pose l := sort e (eig_pairs s (0 : 'M[C]_k)).
have Hp : perm_eq l (eig_pairs s (0 : 'M[C]_k)) by rewrite perm_sort.
have [p Hn] := perm_pairs Hp.
have Hs : sorted e l by apply: sort_sorted=> x y; exact: key_abs_total.
pose Q : 'M[C]_k := perm_mx p.
have QQ : Q *m adj Q = 1%:M.
  have -> : adj Q = perm_mx p^-1 by rewrite /adj /Q map_perm_mx tr_perm_mx.
  by rewrite -perm_mxM mulgV perm_mx1.
have QQ' := mulmx1C QQ.
pose s' : 'rV[C]_k := \row_j s 0 (p j).
have Ds : diag_mx s' = Q *m diag_mx s *m adj Q.
  apply/matrixP=> i j; rewrite !mxE (bigD1 (p i)) //= big1 ?addr0 => [|h Hh].
    rewrite adjE !mxE (bigD1 (p i)) //= big1 ?addr0 => [|h Hh].
      rewrite !mxE !eqxx mul1r mulr1n (inj_eq perm_inj) eq_sym.
      by case: eqP=> _; rewrite ?conjC1 ?conjC0 ?mulr1 ?mulr0 // mulr0n.
    by rewrite !mxE [p i == h]eq_sym (negbTE Hh) mul0r.
  rewrite !mxE big1 ?mul0r // => h' _; rewrite !mxE.
  have [<-|N] := eqVneq (p i) h'; last by rewrite mul0r.
  by rewrite [p i == h]eq_sym (negbTE Hh) mulr0n mulr0.
exists (U *m adj Q), s', (Q *m Vh); split.
- rewrite E1 Ds -!mulmxA (mulmxA (adj Q) Q (diag_mx s *m _)) QQ' mul1mx.
  by rewrite (mulmxA (adj Q) Q Vh) QQ' mul1mx.
- by rewrite adjM adjK mulmxA -(mulmxA Q) E2 mulmx1.
- by rewrite adjM mulmxA -(mulmxA Q) E3 mulmx1.
- by move=> j; rewrite mxE.
move=> i j Hij; rewrite !mxE.
have : e (nth (0, 0) l i) (nth (0, 0) l j).
  have szl : size l = k by rewrite (perm_size Hp) size_eig_pairs.
  apply: (sorted_leq_nth _ _ (0, 0) Hs); rewrite ?inE ?szl //.
    by move=> y x z h1 h2; exact: key_abs_trans h2 h1.
  by move=> x; rewrite /e /key_abs lexx.
by rewrite !Hn /e /key_abs /= !ger0_norm.
Qed.

Lemma svd_exists n m (X : 'M[C]_(n, m)) :
  exists r : 'M[C]_(n, minn n m) * 'rV[C]_(minn n m) * 'M[C]_(minn n m, m), is_svd X r.1.1 r.1.2 r.2.
Proof.
have [H|H] := leqP m n.
  have [U [s [V P]]] := svd_tall X H; have [U' [s' [V' P']]] := svd_sort P.
  by exists (U', s', V').
have [U [s [V [E1 E2 E3 E4]]]] := svd_tall (adj X) (ltnW H).
have P : presvd X (adj V) s (adj U).
  split=> //; rewrite ?adjK //; apply: (@adj_inj C); rewrite E1 !adjM !adjK adj_diag mulmxA.
  by do 2 congr (_ *m _); congr diag_mx; apply/rowP=> j; rewrite !mxE conj_Creal ?ger0_real.
have [U' [s' [V' P']]] := svd_sort P.
by exists (U', s', V').
Qed.

Definition svdb n m (X : 'M[C]_(n, m)) (r : 'M[C]_(n, minn n m) * 'rV[C]_(minn n m) * 'M[C]_(minn n m, m)) : bool :=
  [&& X == r.1.1 *m diag_mx r.1.2 *m r.2, adj r.1.1 *m r.1.1 == 1%:M, r.2 *m adj r.2 == 1%:M,
      [forall j, 0 <= r.1.2 0 j] & [forall i : 'I_(minn n m), forall j : 'I_(minn n m), (i <= j)%N ==> (r.1.2 0 j <= r.1.2 0 i)]].
Lemma svdbP n m (X : 'M[C]_(n, m)) r : reflect (is_svd X r.1.1 r.1.2 r.2) (svdb X r).
Proof.
apply: (iffP and5P)=> -[/eqP H1 /eqP H2 /eqP H3 H4 H5].
  split=> //; try exact/eqP; first by move=> j; exact: (forallP H4 j).
  by move=> i j; apply/implyP; exact: (forallP (forallP H5 i) j).
by split=> //; [exact/forallP|apply/forallP=> i; apply/forallP=> j; apply/implyP; exact: H5].
Qed.
Lemma svdb_exists n m (X : 'M[C]_(n, m)) : exists r, svdb X r.
Proof. by have [r /svdbP] := svd_exists X; exists r. Qed.
Definition ideal_svd n m (X : 'M[C]_(n, m)) := xchoose (svdb_exists X).
Lemma ideal_svdP n m (X : 'M[C]_(n, m)) : is_svd X (ideal_svd X).1.1 (ideal_svd X).1.2 (ideal_svd X).2.
Proof. exact/svdbP/xchooseP. Qed.

(** ** Eigenvectors: a basis of them whenever there is one *)
Definition diagonal_in r (A : 'M[C]_r) := exists W L, W \in unitmx /\ A *m W = W *m diag_mx L.
Definition char_roots r (A : 'M[C]_r) : seq C := undup (sval (closed_field_poly_normal (char_poly A))).
Definition has_basis r (A : 'M[C]_r) : bool := row_full (\sum_(a <- char_roots A) eigenspace A a)%MS.

Lemma char_rootsP r (A : 'M[C]_r) a : eigenvalue A a -> a \in char_roots A.
Proof.
rewrite eigenvalue_root_char /char_roots mem_undup; case: closed_field_poly_normal => s /= E.
by rewrite E rootZ ?root_prod_XsubC // (monicP (char_poly_monic A)) oner_neq0.
Qed.

Lemma has_basisP r (A : 'M[C]_r) : diagonal_in A^T <-> has_basis A.
Proof.
split=> [[W [L [HW E]]]|].
  rewrite /has_basis -sub1mx.
  have E' : W^T *m A = diag_mx L *m W^T by apply: trmx_inj; rewrite !trmx_mul !trmxK tr_diag_mx.
  have HW' : W^T \in unitmx by rewrite unitmx_tr.
  have H1 : ((1%:M : 'M_r) <= W^T)%MS by rewrite sub1mx row_full_unit.
  apply: (submx_trans H1) => {H1}.
  apply/row_subP=> i.
  have Hi : (row i W^T <= eigenspace A (L 0 i))%MS.
    by apply/eigenspaceP; rewrite -row_mul E' row_mul row_diag_mx -scalemxAl -rowE.
  have Ni : row i W^T != 0.
    apply/negP=> /eqP Z; have : row i (W^T *m invmx W^T) = 0 by rewrite row_mul Z mul0mx.
    by rewrite mulmxV // => /rowP /(_ i); rewrite !mxE eqxx => /eqP; rewrite oner_eq0.
  have Hin : L 0 i \in char_roots A.
    apply: char_rootsP; apply/eigenvalueP; exists (row i W^T)=> //; exact/eigenspaceP.
  apply: (submx_trans Hi); rewrite (big_rem _ Hin) /=; exact: addsmxSl.
rewrite /has_basis => HB.
have : diagonalizable A.
  apply/diagonalizablePeigen; exists (char_roots A); first exact: undup_uniq.
  by apply/eqmxP; rewrite submx1 sub1mx.
case=> P Pu /diagonalizable_forPex [L /(simmxP Pu) HL].
exists P^T, L; split; first by rewrite unitmx_tr.
by apply: trmx_inj; rewrite !trmx_mul !trmxK tr_diag_mx -HL.
Qed.

(** eigenvectors of unit norm: a basis of them whenever there is one *)
Lemma norm_col r (W : 'M[C]_r) j : adj (col j W) *m col j W = (\sum_i `|W i j| ^+ 2)%:M.
Proof. by rewrite adj_col_sqr; congr (_%:M); apply: eq_bigr=> i _; rewrite mxE. Qed.
Lemma normalise_cols r (W : 'M[C]_r) : (forall j, col j W != 0) -> exists c : 'rV[C]_r,
  (forall j, c 0 j != 0) /\ forall j, \sum_i `|(W *m diag_mx c) i j| ^+ 2 = 1.
Proof.
move=> H.
have F j : exists c, (c != 0) && (adj (c *: col j W) *m (c *: col j W) == 1%:M).
  by have [c [N E]] := unitize (H j); exists c; rewrite N; apply/eqP.
pose c j := xchoose (F j).
have P j := xchooseP (F j).
exists (\row_j c j); split=> j; first by rewrite mxE; have /andP [] := P j.
have /andP [_ /eqP] := P j; rewrite -/(c j) adj_col_sqr => /matrixP /(_ 0 0); rewrite !mxE /= !mulr1n => <-.
by apply: eq_bigr=> i _; rewrite mul_mx_diag !mxE mulrC.
Qed.

Definition eigb r (A : 'M[C]_r) (lw : 'rV[C]_r * 'M[C]_r) : bool :=
  [&& A *m lw.2 == lw.2 *m diag_mx lw.1, [forall j, \sum_i `|lw.2 i j| ^+ 2 == 1]
    & has_basis A^T ==> (lw.2 \in unitmx)].
Lemma diag_mxC r (a b : 'rV[C]_r) : diag_mx a *m diag_mx b = diag_mx b *m diag_mx a.
Proof. by rewrite !mulmx_diag; congr diag_mx; apply/rowP=> i; rewrite !mxE mulrC. Qed.
Lemma eigb_exists r (A : 'M[C]_r) : exists lw, eigb A lw.
Proof.
case HB : (has_basis A^T).
  have [W [L [HW HE]]] : diagonal_in A by move/has_basisP: HB; rewrite trmxK.
  have HN j : col j W != 0.
    apply/negP=> /eqP Z; have : invmx W *m col j W = 0 by rewrite Z mulmx0.
    by rewrite -colM mulVmx // => /colP /(_ j); rewrite !mxE eqxx => /eqP; rewrite oner_eq0.
  have [c [Nc Hc]] := normalise_cols HN.
  exists (L, W *m diag_mx c); rewrite /eigb HB /= mulmxA HE -!mulmxA diag_mxC eqxx /=.
  apply/andP; split; first by apply/forallP=> j; apply/eqP.
  by rewrite unitmx_mul HW unitmxE det_diag unitfE; apply/prodf_neq0=> j _.
case: r A HB=> [|r] A HB.
  by exists (0, 0); rewrite /eigb HB andbT; apply/andP; split; [apply/eqP; rewrite [LHS]flatmx0 [RHS]flatmx0|apply/forallP=> -[]].
have [l [v [Hv HA]]] := eig_vec A.
exists (const_mx l, \matrix_(i, j) v i 0); rewrite /eigb HB /= andbT; apply/andP; split.
  apply/eqP/matrixP=> i j; rewrite mul_mx_diag !mxE mulrC.
  by move/matrixP/(_ i 0): HA; rewrite !mxE => <-; apply: eq_bigr=> k _; rewrite mxE.
apply/forallP=> j; apply/eqP; move: Hv; rewrite adj_col_sqr => /matrixP /(_ 0 0); rewrite !mxE /= !mulr1n => <-.
by apply: eq_bigr=> i _; rewrite mxE.
Qed.
Definition ideal_eig r (A : 'M[C]_r) := xchoose (eigb_exists A).
Lemma ideal_eigP r (A : 'M[C]_r) : is_eig A (ideal_eig A).1 (ideal_eig A).2.
Proof. by case/and3P: (xchooseP (eigb_exists A)) => /eqP H1 /forallP H2 _; split=> // j; exact/eqP. Qed.
Lemma ideal_eig_basis r (A : 'M[C]_r) : diagonal_in A -> (ideal_eig A).2 \in unitmx.
Proof.
move=> H; case/and3P: (xchooseP (eigb_exists A)) => _ _ /implyP; apply; apply/has_basisP; by rewrite trmxK.
Qed.

(** ** The instance *)
Definition ideal_rank k (rk : Model_Utils.rank_arg) : 'I_k.+1 :=
  match rk with
  | Model_Utils.RInt (BinInt.Zpos p) => inord (minn (BinPos.Pos.to_nat p) k)
  | _ => ord_max
  end.
Definition ideal : numpy C := {|
  np_svd := ideal_svd; np_rank := fun k _ _ _ rk => ideal_rank k rk; np_eig := ideal_eig;
  np_sqrtm := fun r M => let lw := ideal_eig M in lw.2 *m diag_mx (\row_j sqrtC (lw.1 0 j)) *m invmx lw.2;
  np_norm := fun n m X => sqrtC (frob2 X);
  np_lstsq := fun n r M y => ginv M *m y; np_solve := fun r P q => invmx P *m q; np_pinv := fun n r M => ginv M;
  np_power := fun x q => x ^ (numq q) |}.

Theorem ideal_contracts :
  (forall n m (X : 'M[C]_(n, m)), svd_ok ideal X) /\
  (forall r (A : 'M[C]_r), eig_ok ideal A /\ (diagonal_in A -> (np_eig ideal A).2 \in unitmx)) /\
  (forall n r (M : 'M[C]_(n, r)) y, lstsq_ok ideal M y) /\
  (forall n r (M : 'M[C]_(n, r)), pinv_ok ideal M) /\
  (forall r (P : 'M[C]_r) q, P \in unitmx -> solve_ok ideal P q) /\
  (forall r (M : 'M[C]_r), diagonal_in M -> sqrtm_ok ideal M) /\
  (forall n m (X : 'M[C]_(n, m)), norm_ok ideal X) /\
  power_ok ideal.
Proof.
split; first by move=> n m X; exact: ideal_svdP.
split; first by move=> r A; split; [exact: ideal_eigP|exact: ideal_eig_basis].
split; first by move=> n r M y; exact: ginv_lstsq.
split; first by move=> n r M; exact: ginv_ok.
split; first by move=> r P q H; rewrite /solve_ok /= mulKVmx.
split.
  move=> r M /ideal_eig_basis HW; rewrite /sqrtm_ok /=.
  have [HE _] := ideal_eigP M; set lw := ideal_eig M in HE HW *.
  rewrite !mulmxA mulmxKV // -(mulmxA lw.2) mulmx_diag.
  have -> : \row_j ((\row_j sqrtC (lw.1 0 j)) 0 j * (\row_j sqrtC (lw.1 0 j)) 0 j) = lw.1 :> 'rV_r.
    by apply/rowP=> j; rewrite !mxE -expr2 sqrtCK.
  by rewrite -HE mulmxK.
split; first by move=> n m X; split; [rewrite sqrtC_ge0 frob2_ge0|rewrite sqrtCK].
by move=> x z _; rewrite /= numq_int.
Qed.
End Ideal.
Print Assumptions ideal_contracts.
