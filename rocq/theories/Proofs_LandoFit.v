(** * LANDO: what the loop gives with the tolerance 0, and the weights of the model *)
From mathcomp Require Import all_ssreflect all_algebra.
From Verif Require Import Py LinAlg Model_Operator Spec_Operator Model_Lando Spec_Lando Proofs_Lando Proofs_LandoDict Proofs_LandoOnline.
Set Implicit Arguments. Unset Strict Implicit. Unset Printing Implicit Defensive.
Import Order.TTheory GRing.Theory Num.Theory.
Local Open Scope ring_scope.

Section Exact.
Variables (C : numClosedFieldType) (n : nat) (ex : C -> C) (ks : kspec C n).
Local Notation k := (kernel ex ks).
Hypothesis PK : pos_kernel k.
Local Notation sg := (existT (fun m => 'M[C]_(n, m))).

Lemma coded_sub tol xs D cs : coded k tol xs D cs -> subseq D xs.
Proof.
elim=> [x | xs' D' cs' x d _ IH _ _ | xs' D' cs' x d c _ IH _ _ _] /=; first by rewrite eqxx.
  by rewrite -!cats1; apply: cat_subseq.
by apply: (subseq_trans IH); rewrite -cats1 prefix_subseq.
Qed.
Lemma learns_sub tol xs D : learns k tol xs D -> subseq D xs.
Proof.
elim=> [x | xs' D' x d _ IH _ _ | xs' D' x d _ IH _ _] /=; first by rewrite eqxx.
  by rewrite -!cats1; apply: cat_subseq.
by apply: (subseq_trans IH); rewrite -cats1 prefix_subseq.
Qed.
Lemma sg_kernels p (Z : 'M[C]_(n, p)) (D1 D2 : {m & 'M[C]_(n, m)}) c : D1 = D2 ->
  kernels k Z (projT2 D1) *m cvec _ c = kernels k Z (projT2 D2) *m cvec _ c.
Proof. by move->. Qed.

(** with the tolerance 0 each snapshot is the combination of the dictionary with its coefficients, for the kernel *)
Lemma coded_exact p (Z : 'M[C]_(n, p)) xs D cs : coded k 0 xs D cs -> (forall x, x \in xs -> realm x) -> realm Z ->
  forall j, (j < size xs)%N -> kernels k Z (nth 0 xs j) = kernels k Z (cols D) *m cvec (size D) (nth (fun=> 0) cs j).
Proof.
move=> H R RZ; elim: H R => [x | xs' D' cs' x d L IH Hd T | xs' D' cs' x d c L IH Hd T Ap] R.
- by case=> // _; rewrite /= cvec1 mulmx1 cols1.
- have R' x' : x' \in xs' -> realm x' by move=> I; apply: R; rewrite mem_rcons in_cons I orbT.
  move=> j; rewrite size_rcons ltnS leq_eqVlt => /orP [/eqP -> | Lj].
    rewrite !nth_rcons (coded_size L) ltnn eqxx (sg_kernels Z (place C (size D')) (cols_rcons D' x)) /= kernels_col cvec_place.
    by rewrite mul_row_col mulmx0 add0r mulmx1.
  rewrite !nth_rcons (coded_size L) Lj (IH R' _ Lj) [RHS](sg_kernels Z _ (cols_rcons D' x)) /= kernels_col cvec_old.
    by rewrite mul_row_col mulmx0 addr0.
  by move=> i Li; apply: (coded_vanish L).
have R' x' : x' \in xs' -> realm x' by move=> I; apply: R; rewrite mem_rcons in_cons I orbT.
have Rx : realm x by apply: R; rewrite mem_rcons mem_head.
have RD : realm (cols D') by apply: cols_real => z /(mem_subseq (coded_sub L)); apply: R'.
move=> j; rewrite size_rcons ltnS leq_eqVlt => /orP [/eqP -> | Lj]; last by rewrite !nth_rcons (coded_size L) Lj; apply: IH.
rewrite !nth_rcons (coded_size L) ltnn eqxx cvec_coeffs.
have d0 : d = 0 by apply/eqP; rewrite eq_le T; case: Hd => [[c' <-] _]; apply: (pk_pos PK); apply: realm_row.
have := kernels_null PK (realm_row RD Rx) RZ (etrans Ap d0); rewrite kernels_col mul_row_col mulmxN mulmx1.
by move/eqP; rewrite addrC subr_eq0 => /eqP.
Qed.

Lemma zip_swap (S T : Type) (s : seq S) (t : seq T) : zip t s = [seq (p.2, p.1) | p <- zip s t].
Proof. by elim: s t => [|a s IH] [|b t] //=; rewrite IH. Qed.
(** the two errors are the same with the tolerance 0 *)
Lemma coded_error_exact xs ys D cs V : coded k 0 xs D cs -> (forall x, x \in xs -> realm x) -> size ys = size xs ->
  coded_error k (cols D) V ys cs = data_error k (cols D) V xs ys.
Proof.
move=> L R Sz; rewrite /coded_error /data_error.
have RD : realm (cols D) by apply: cols_real => z /(mem_subseq (coded_sub L)); apply: R.
rewrite (big_nth (0, fun=> 0)) [RHS](big_nth (0, 0)) !size_zip Sz (coded_size L) minnn.
rewrite big_nat [RHS]big_nat; apply: eq_bigr => j /andP [_ Lj].
rewrite !nth_zip ?(coded_size L) ?Sz //= -mulmxA -(coded_exact L R RD) //.
Qed.

(** weights that fit without error are the only ones *)
Lemma weights_unique xs D (W V : 'M[C]_(n, size D)) : kernels k (cols D) (cols D) \in unitmx -> subseq D xs ->
  (forall x, x \in xs -> W *m kernels k (cols D) x = V *m kernels k (cols D) x) -> W = V.
Proof.
move=> U S H; rewrite -[W](mulmxK U) -[V](mulmxK U); congr (_ *m _); apply: by_cols => j.
rewrite !colE -!mulmxA -colE; have -> : col j (kernels k (cols D) (cols D)) = kernels k (cols D) (nth 0 D j).
  apply/matrixP => i l; rewrite !mxE !ord1 col_id; congr (k _ _).
  by apply/matrixP => i' l'; rewrite !mxE !ord1.
by apply: H; apply: (mem_subseq S); rewrite mem_nth.
Qed.
Lemma data_error0 m (D V : 'M[C]_(n, m)) xs ys : data_error k D V xs ys = 0 <->
  (forall p, p \in zip xs ys -> p.2 = V *m kernels k D p.1).
Proof.
split=> [H p I | H].
  have /eqP := H; rewrite psumr_eq0; last by move=> q _; apply: frob2_ge0.
  by move/allP/(_ p I); rewrite frob2_eq0 subr_eq0 => /eqP.
by rewrite /data_error big_seq big1 // => p /H E; apply/eqP; rewrite frob2_eq0 subr_eq0 -E.
Qed.
End Exact.

Section Weights.
Variables (C : numClosedFieldType) (np : numpy C) (n : nat) (ex : C -> C) (ks : kspec C n) (cplx : bool).
Local Notation k := (kernel ex ks).
Hypothesis PK : pos_kernel k.
Hypothesis LS : forall a b (M : 'M[C]_(a, b)) y, lstsq_ok np M y.
Hypothesis PI : forall a b (M : 'M[C]_(a, b)), pinv_ok np M.
Local Notation absorb := (absorb np ex ks cplx).
Local Notation sg := (existT (fun m => 'M[C]_(n, m))).

Lemma repack (o : lop C n) D : sg _ (lo_D o) = sg _ (cols D) -> exists W : 'M[C]_(n, size D),
  forall P : forall m, 'M[C]_(n, m) -> 'M[C]_(n, m) -> Prop, P _ (lo_D o) (lo_W o) -> P _ (cols D) W.
Proof.
case: o => m Dm Cm Pm Wm /= E; have Em : m = size D by exact: (congr1 (@projT1 _ _) E).
subst m; exists Wm => P; suff -> : Dm = cols D by [].
exact: (Eqdep_dec.inj_pair2_eq_dec _ PeanoNat.Nat.eq_dec _ _ _ _ E).
Qed.
Lemma rls_optimal tol xs ys o D cs V : holds_rls ex ks tol xs ys o D cs ->
  coded_error k (lo_D o) (lo_W o) ys cs <= coded_error k (lo_D o) V ys cs.
Proof.
case=> I L Sz E HP HW; apply: normal_min; first by rewrite (coded_size L).
by rewrite HW -mulmxA HP mulmx1.
Qed.
Lemma frob2T a b (M : 'M[C]_(a, b)) : frob2 M^T = frob2 M.
Proof. by rewrite /frob2 exchange_big; apply: eq_bigr => i _; apply: eq_bigr => j _; rewrite mxE. Qed.
Lemma weigh_optimal lstsq N (X Y : 'M[C]_(n, N)) o (V : 'M[C]_(n, lo_m o)) :
  frob2 (Y - lo_W (weigh np ex ks lstsq X Y o) *m kernels k (lo_D o) X) <= frob2 (Y - V *m kernels k (lo_D o) X).
Proof.
rewrite /weigh /=; case: lstsq.
  rewrite -frob2T -[X in _ <= X]frob2T !linearB /= !trmx_mul !trmxK; apply: lstsq_optimal; exact: lstsq_mxP.
have T a b (A : 'M[C]_(a, b)) : frob2 A = frob2 (adj A) by rewrite frob2_tr' frob2_tr adjK.
rewrite T [X in _ <= X]T !adjB !adjM; apply: lstsq_optimal; rewrite /is_lstsq adjK.
case: (PI (kernels k (lo_D o) X)) => H1 _ _ H4; rewrite mulmxA -[kernels _ _ _ *m _ *m adj (np_pinv _ _)]mulmxA -adjM H4.
by rewrite mulmxA H1.
Qed.
Lemma data_errorE m (D V : 'M[C]_(n, m)) N (X Y : 'M[C]_(n, N)) (order : seq 'I_N) : perm_eq order (enum 'I_N) ->
  data_error k D V [seq col i X | i <- order] [seq col i Y | i <- order] = frob2 (Y - V *m kernels k D X).
Proof.
move=> Pm; rewrite /data_error zip_map big_map (perm_big _ Pm) /= big_enum /= {2}/frob2 exchange_big /=.
apply: eq_bigr => j _; rewrite /frob2; apply: eq_bigr => i _; rewrite big_ord1 !mxE; congr (`| _ - _| ^+ 2).
by apply: eq_bigr => l _; rewrite !mxE; congr (_ * k _ _); apply/matrixP => a b; rewrite !mxE.
Qed.

(** a fit without the updating argument *)
Lemma fit_operator online tol lstsq old N (order : seq 'I_N) (X Y : 'M[C]_(n, N)) o :
  compute_operator np ex ks cplx online tol lstsq false old order X Y = Ok o ->
  exists i rest, order = i :: rest /\
    let o1 := foldl (absorb online tol) (begin_with ex ks online (col i X, col i Y)) [seq (col j X, col j Y) | j <- rest] in
    o = if online then o1 else weigh np ex ks lstsq X Y o1.
Proof. by rewrite /compute_operator /=; case: order => [|i rest] //= [<-]; exists i, rest. Qed.
Lemma fit_holds online tol lstsq old N (order : seq 'I_N) (X Y : 'M[C]_(n, N)) o : 0 <= tol ->
  (forall x, x \in [seq col i X | i <- order] -> realm x) ->
  (forall i, ohead order = Some i -> k (col i X) (col i X) != 0) ->
  compute_operator np ex ks cplx online tol lstsq false old order X Y = Ok o ->
  holds ex ks tol [seq col i X | i <- order] [seq col i Y | i <- order] o.
Proof.
move=> t0 RX K0 /fit_operator [i [rest [E ->]]]; subst order.
have Rc j : j \in _ -> realm (col j X) := fun I => RX _ (map_f _ I).
have Rl : forall p, p \in [seq (col j X, col j Y) | j <- rest] -> realm p.1 by move=> p /mapP [j I ->] /=; apply: Rc; rewrite ?in_cons I ?orbT.
have := @fold_holds C np n ex ks cplx PK LS tol online _ _ _ _ t0 Rl (begin_holds PK tol online (col i Y) (Rc i (mem_head _ _)) (K0 i erefl)).
rewrite /unzip1 /unzip2 -!map_comp /=; case: online => // - [[R1 R2 R3 R4] R5]; split=> //=.
Qed.
Lemma fit_rls tol lstsq old N (order : seq 'I_N) (X Y : 'M[C]_(n, N)) o : 0 <= tol ->
  (forall x, x \in [seq col i X | i <- order] -> realm x) ->
  (forall i, ohead order = Some i -> k (col i X) (col i X) != 0) ->
  compute_operator np ex ks cplx true tol lstsq false old order X Y = Ok o ->
  exists D cs, holds_rls ex ks tol [seq col i X | i <- order] [seq col i Y | i <- order] o D cs.
Proof.
move=> t0 RX K0 /fit_operator [i [rest [E ->]]]; subst order.
have Rc j : j \in _ -> realm (col j X) := fun I => RX _ (map_f _ I).
have := @fold_rls C np n ex ks cplx PK LS tol _ _ _ _ _ [seq (col j X, col j Y) | j <- rest] t0 _
  (begin_rls PK tol (col i Y) (Rc i (mem_head _ _)) (K0 i erefl)).
rewrite /unzip1 /unzip2 -!map_comp /=; apply.
by move=> p /mapP [j I ->] /=; apply: Rc; rewrite ?in_cons I ?orbT.
Qed.
Lemma update_rls tol lstsq o0 N (order : seq 'I_N) (X Y : 'M[C]_(n, N)) o xs ys D cs : 0 <= tol ->
  (forall x, x \in [seq col i X | i <- order] -> realm x) ->
  holds_rls ex ks tol xs ys o0 D cs ->
  compute_operator np ex ks cplx true tol lstsq true (Some o0) order X Y = Ok o ->
  exists D cs, holds_rls ex ks tol (xs ++ [seq col i X | i <- order]) (ys ++ [seq col i Y | i <- order]) o D cs.
Proof.
move=> t0 RX H; rewrite /compute_operator /= => - [<-].
have Rc j : j \in _ -> realm (col j X) := fun I => RX _ (map_f _ I).
have := @fold_rls C np n ex ks cplx PK LS tol _ _ _ _ _ [seq (col j X, col j Y) | j <- order] t0 _ H.
rewrite /unzip1 /unzip2 -!map_comp /=; apply.
by move=> p /mapP [j I ->] /=; apply: Rc; rewrite ?in_cons I ?orbT.
Qed.
End Weights.
