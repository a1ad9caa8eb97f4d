From Coq Require Import QArith.
From mathcomp Require Import all_ssreflect all_fingroup all_algebra.
From Verif Require Import Py LinAlg Model_Operator Model_BOP Model_CostsWin Model_Costs Spec_Costs.
From Verif Require Model_Utils.
Set Implicit Arguments. Unset Strict Implicit. Unset Printing Implicit Defensive.
Import Order.TTheory GRing.Theory Num.Theory.
Local Open Scope ring_scope.

Section Rec.
Variable C : numClosedFieldType.
Variable x : ext C.
Let ex := x_exp x.

Lemma foldl_add (R : zmodType) A (F : A -> R) (l : seq A) a : foldl (fun acc p => acc + F p) a l = a + \sum_(p <- l) F p.
Proof. elim: l a => [|p l IH] a; rewrite ?big_nil ?addr0 //= IH big_cons addrA. by []. Qed.

Lemma build_kern_real w j : (- ((j%:R - (w%:R - 1) / 2%:R) ^+ 2) / (w%:R / 8%:R) ^+ 2 : C) \is Num.real.
Proof.
have R m : (m%:R : C) \is Num.real by exact: realn.
by rewrite rpredM ?rpredV ?rpredX ?rpredN ?rpredX ?rpredB ?rpredM ?rpredV ?R ?rpred1 ?rpredB ?rpred1 ?R.
Qed.
Lemma build_kern_gt0 w j : exp_positive ex -> 0 < build_kern x w j.
Proof. by move=> P; apply: P; apply: build_kern_real. Qed.

Lemma ReD_sum I (r : seq I) (P : pred I) (F : I -> C) : 'Re (\sum_(i <- r | P i) F i) = \sum_(i <- r | P i) 'Re (F i).
Proof. by elim/big_rec2: _ => [|i y1 y2 _ <-]; rewrite ?raddf0 ?raddfD. Qed.

(** spreading *)
Lemma spread_sum w (l : seq nat) I (r : seq I) (F : I -> 'I_w -> C) s :
  \sum_(i <- r) spread l (F i) s = spread l (fun a => \sum_(i <- r) F i a) s.
Proof. by rewrite /spread exchange_big. Qed.
Lemma eq_spread w (l : seq nat) (F G : 'I_w -> C) s : F =1 G -> spread l F s = spread l G s.
Proof. by move=> E; apply: eq_bigr => a _; apply: E. Qed.
Lemma spread_out w (l : seq nat) (F : 'I_w -> C) s : size l = w -> s \notin l -> spread l F s = 0.
Proof.
move=> E N; rewrite /spread big1 // => a /eqP Ea; case/negP: N; rewrite -Ea mem_nth // E; exact: ltn_ord.
Qed.
Lemma spread_gt0 w (l : seq nat) (F : 'I_w -> C) s : (forall a, 0 < F a) -> size l = w -> s \in l -> 0 < spread l F s.
Proof.
move=> P E M; have L : (index s l < w)%N by rewrite -E index_mem.
rewrite /spread (bigD1 (Ordinal L)) /= ?nth_index // ltr_paddr // sumr_ge0 // => a _; exact: ltW.
Qed.
Lemma spread_ge0 w (l : seq nat) (F : 'I_w -> C) s : (forall a, 0 <= F a) -> 0 <= spread l F s.
Proof. by move=> P; apply: sumr_ge0 => a _. Qed.
Lemma spread_const w (l : seq nat) (F : 'I_w -> C) (G : 'I_w -> C) z s :
  (forall a : 'I_w, nth 0%N l a = s -> G a = z) -> spread l (fun a => G a * F a) s = z * spread l F s.
Proof. by move=> E; rewrite /spread big_distrr; apply: eq_bigr => a /eqP /E ->. Qed.

Section Num.
Variables (n w : nat).
Implicit Types (ls : seq (seq nat)) (rs : seq (wres C n w)).

Lemma numeratorE ls rs (lab : seq nat) val j i s :
  numerator x ls rs lab val j i s =
  if j \in lab then \sum_(p <- zip (iota 0 (size ls)) (zip ls rs)) spread p.2.1 (fun a => val p.1 p.2.2 j i a * build_kern x w a) s else 0.
Proof.
rewrite /numerator; case: ifP => J; first by rewrite foldl_add add0r.
by elim: (zip _ _).
Qed.
Lemma denominatorE ls s : denominator x w ls s = \sum_(l <- ls) spread l (fun a : 'I_w => build_kern x w a) s.
Proof. by rewrite /denominator foldl_add add0r. Qed.

Lemma sum_zip3 ls rs (F : nat -> seq nat -> wres C n w -> C) (r0 : wres C n w) : size ls = size rs ->
  \sum_(p <- zip (iota 0 (size ls)) (zip ls rs)) F p.1 p.2.1 p.2.2 =
  \sum_(k < size ls) F k (nth [::] ls k) (nth r0 rs k).
Proof.
move=> E; rewrite (big_nth (0%N, ([::], r0))) size_zip size_iota size_zip E !minnn big_mkord; apply: eq_bigr => k _.
by rewrite nth_zip ?size_iota ?size_zip -?E ?minnn // nth_zip // nth_iota.
Qed.

Lemma denominator_gt0 ls s : exp_positive ex -> all (fun l => size l == w) ls -> has (fun l => s \in l) ls ->
  0 < denominator x w ls s.
Proof.
move=> P A H; rewrite denominatorE; elim: ls A H => //= l ls IH /andP[/eqP S A] /orP[M | M].
  rewrite big_cons ltr_paddr //; last by apply: spread_gt0 => // a; exact: build_kern_gt0.
  by rewrite sumr_ge0 // => l' _; apply: spread_ge0 => a; apply: ltW; exact: build_kern_gt0.
rewrite big_cons ltr_paddl ?IH //; apply: spread_ge0 => a; apply: ltW; exact: build_kern_gt0.
Qed.

(** the weight of window [k] at time step [s] *)
Definition wgt ls s (k : nat) : C :=
  (if (k < size ls)%N then spread (nth [::] ls k) (fun a : 'I_w => build_kern x w a) s else 0) / denominator x w ls s.

Lemma wgt_weights ls s : exp_positive ex -> all (fun l => size l == w) ls -> has (fun l => s \in l) ls ->
  weights ls s (wgt ls s).
Proof.
move=> P A H; have D0 := denominator_gt0 P A H; split.
- move=> k; rewrite divr_ge0 ?(ltW D0) //; case: ifP => // _; apply: spread_ge0 => a; apply: ltW; exact: build_kern_gt0.
- rewrite -big_distrl /=; apply: (canLR (mulfK _)); first by rewrite gt_eqF.
  rewrite mul1r denominatorE (big_nth [::]) big_mkord; apply: eq_bigr => k _; by rewrite ltn_ord.
- move=> k N'; rewrite /wgt; case: ifP => K; rewrite ?mul0r // spread_out ?mul0r //.
  by move/allP: A => /(_ _ (mem_nth [::] K)) /eqP.
Qed.

Lemma osumE (D : C) (l : seq nat) (F : nat -> C) z : D != 0 ->
  foldl (@oadd C) (Some z) [seq quot (F j) D | j <- l] = Some (z + (\sum_(j <- l) F j) / D).
Proof.
move=> nz; elim: l z => [|j l IH] z; first by rewrite big_nil mul0r addr0.
rewrite big_cons map_cons [LHS]/= {1}/quot (negbTE nz) IH; congr Some; by rewrite mulrDl addrA.
Qed.

(** the sum over a list of bands is the weighted average of the values [v] of the windows at [s] *)
Lemma bands_average ls rs (lab js : seq nat) val (v : nat -> C) i (s : nat) (r0 : wres C n w) : exp_positive ex ->
  all (fun l => size l == w) ls -> size ls = size rs -> has (fun l => s \in l) ls ->
  (forall k (a : 'I_w), (k < size ls)%N -> nth 0%N (nth [::] ls k) a = s ->
     \sum_(j <- js | j \in lab) val k (nth r0 rs k) j i a = v k) ->
  osum [seq quot (numerator x ls rs lab val j i s) (denominator x w ls s) | j <- js]
   = Some (\sum_(k < size ls) wgt ls s k * v k).
Proof.
move=> P A S H E; have D0 := denominator_gt0 P A H; have nz := lt0r_neq0 D0.
rewrite /osum osumE // add0r; congr Some.
under [in RHS]eq_bigr do rewrite /wgt ltn_ord mulrAC.
rewrite -[in RHS]big_distrl /=; congr (_ / _).
under eq_bigr do rewrite numeratorE.
rewrite -big_mkcond /=.
under eq_bigr => j _ do rewrite (sum_zip3 (fun k l r => spread l (fun a => val k r j i a * build_kern x w a) s) r0 S).
rewrite exchange_big /=; apply: eq_bigr => k _.
rewrite -(big_filter _ (fun j => j \in lab)) spread_sum mulrC -(@spread_const w _ (fun a : 'I_w => build_kern x w a) (fun a => \sum_(j <- js | j \in lab) val k (nth r0 rs k) j i a)).
  by apply: eq_spread => a; rewrite -big_distrl /= big_filter.
by move=> a Ea; apply: E.
Qed.
End Num.

(** ** one window *)
Lemma expansionE n r (W : 'M[C]_(n, r)) e b tau i :
  expansion ex W e b tau i 0 = \sum_j W i j * b 0 j * ex (e 0 j * tau).
Proof. by rewrite mxE; apply: eq_bigr => j _; rewrite mul_mx_diag !mxE. Qed.

Lemma pad_ord r (v : 'rV[C]_r) (c : 'I_r) : pad v c = v 0 c.
Proof. by rewrite /pad insubT // => H; congr (v 0 _); apply: val_inj. Qed.
Lemma pad_out r (v : 'rV[C]_r) c : (r <= c)%N -> pad v c = 0.
Proof. by move=> H; rewrite /pad insubF // ltnNge H. Qed.

Lemma band_sum_all n w (r : wres C n w) t0 pre i a : (wr_r r <= pre)%N ->
  band_sum x r t0 pre xpredT i a = expansion ex (wr_modes r) (wr_eigs r) (wr_amps r) (wr_time r 0 a - t0) i 0.
Proof.
move=> L; rewrite expansionE /band_sum.
pose F c := pad (row i (wr_modes r)) c * pad (wr_amps r) c * ex (pad (wr_eigs r) c * (wr_time r 0 a - t0)).
transitivity (\sum_(c < wr_r r) F c); last by apply: eq_bigr => c _; rewrite /F !pad_ord mxE.
rewrite (big_ord_widen _ F L) big_mkcond [RHS]big_mkcond /=; apply: eq_bigr => c _.
by case: ltnP => // H; rewrite /F !pad_out // !mul0r.
Qed.

(** splitting the columns by class *)
Lemma sum_by_class (cls : nat -> nat) pre (js lab : seq nat) (P : pred nat) (F : 'I_pre -> C) : uniq js ->
  (forall c : 'I_pre, P (cls c) = (cls c \in js)) -> (forall c : 'I_pre, cls c \in lab) ->
  \sum_(j <- js | j \in lab) \sum_(c < pre | cls c == j) F c = \sum_(c < pre | P (cls c)) F c.
Proof.
move=> U HP HL; rewrite (exchange_big_dep xpredT) //= [RHS]big_mkcond; apply: eq_bigr => c _.
rewrite HP -big_filter; case: ifP => M.
  rewrite (bigD1_seq (cls c)) ?filter_uniq //= ?mem_filter ?M ?HL ?eqxx // big_seq_cond big1 ?addr0 //.
  by move=> j /andP[]; rewrite mem_filter => /andP[/andP[_ /eqP ->]]; rewrite eqxx.
rewrite big_seq big1 // => j; rewrite mem_filter => /andP[/andP[_ /eqP E]]; by rewrite -E M.
Qed.

Lemma labels_ofP (b : bands C) slides pre k c : (k < slides)%N -> (c < pre)%N -> ba_cls b k c \in labels_of b slides pre.
Proof.
move=> K P; rewrite mem_undup mem_sort; apply/flattenP; exists [seq ba_cls b k c | c <- iota 0 pre].
  by apply/mapP; exists k; rewrite ?mem_iota.
by apply/mapP; exists c; rewrite ?mem_iota.
Qed.

(** all bands together *)
Lemma window_bands_all (inc : bool) (b : bands C) n w k (r : wres C n w) pre slides i a :
  (k < slides)%N -> (wr_r r <= pre)%N -> all (fun j => j < ba_n b)%N (labels_of b slides pre) ->
  (inc -> argmin_list (ba_cent b) \in labels_of b slides pre) ->
  \sum_(j <- iota 0 (ba_n b) | j \in labels_of b slides pre) window_band x inc b k r pre j i a =
  'Re (expansion ex (wr_modes r) (wr_eigs r) (wr_amps r) (wr_time r 0 a - tmin (wr_time r)) i 0)
  + (if inc then 'Re (wr_mean r i 0) else 0).
Proof.
move=> K L A I; rewrite /window_band big_split /=; congr (_ + _).
  rewrite -ReD_sum -(band_sum_all _ i a L); congr ('Re _).
  rewrite /band_sum (sum_by_class (P := xpredT)) ?iota_uniq // => c; last exact: labels_ofP.
  by rewrite mem_iota /= add0n; move/allP: A => /(_ _ (labels_ofP b K (ltn_ord c))) ->.
case: inc I => /= [/(_ isT) M|_]; last by rewrite big1.
set m := argmin_list _ in M *.
rewrite -big_filter (bigD1_seq m) ?filter_uniq ?iota_uniq //= ?eqxx ?big1 ?addr0 //; first by move=> j /negbTE ->.
by rewrite mem_filter M mem_iota /= add0n; exact: (allP A).
Qed.

(** ** sums of numbers that may be NaN *)
Lemma oaddC (a b : option C) : oadd a b = oadd b a.
Proof. by case: a b => [a|] [b|] //=; rewrite addrC. Qed.
Lemma oaddA (a b c : option C) : oadd a (oadd b c) = oadd (oadd a b) c.
Proof. by case: a b c => [a|] [b|] [c|] //=; rewrite addrA. Qed.
Lemma osum_cons (a : option C) l : osum (a :: l) = oadd a (osum l).
Proof.
rewrite /osum [LHS]/(foldl _ (oadd (Some 0) a) l) (oaddC (Some 0)).
by elim: l (Some 0) => // b l IH z; rewrite /= -oaddA IH.
Qed.

(** ** Windows of a fitted object *)
Lemma all_windowsE s (N : nat) (F : nat -> seq nat) : w_slides s = Some (BinInt.Z.of_nat N) ->
  (forall k, (k < N)%N -> window s k = Ok (F k)) -> all_windows s = Ok [seq F k | k <- iota 0 N].
Proof.
move=> E H; rewrite /all_windows E Znat.Nat2Z.id.
have: forall k, k \in iota 0 N -> window s k = Ok (F k) by move=> k; rewrite mem_iota /= add0n; exact: H.
elim: (iota 0 N) => //= k l IH A; rewrite A ?inE ?eqxx // IH // => k' M; apply: A; by rewrite inE M orbT.
Qed.

End Rec.
