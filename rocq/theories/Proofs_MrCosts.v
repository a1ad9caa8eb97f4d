(** * mrCOSTS: the loop over the levels, and one level in the global reconstruction *)
From Coq Require Import QArith.
From mathcomp Require Import all_ssreflect all_fingroup all_algebra.
From Verif Require Import Py LinAlg Model_Operator Model_BOP Model_CostsWin Model_Costs Model_MrCosts Spec_Costs Spec_CostsWin Spec_MrCosts.
From Verif Require Import Proofs_CostsWin Proofs_Costs Proofs_CostsBand Proofs_CostsFit.
From Verif Require Model_Utils.
Set Implicit Arguments. Unset Strict Implicit. Unset Printing Implicit Defensive.
Import Order.TTheory GRing.Theory Num.Theory.
Local Open Scope ring_scope.

Section MrP.
Variable C : numClosedFieldType.
Variable np : numpy C.
Variable x : ext C.
Variable y : cext C.

(** ** One level *)
Lemma eq_numerators n w (ls : seq (seq nat)) (rs : seq (wres C n w)) (lab lab' js js' : seq nat) val val' i s (r0 : wres C n w) :
  size ls = size rs ->
  (forall k (a : 'I_w), (k < size ls)%N ->
    \sum_(j <- js | j \in lab) val k (nth r0 rs k) j i a = \sum_(j <- js' | j \in lab') val' k (nth r0 rs k) j i a) ->
  \sum_(j <- js) numerator x ls rs lab val j i s = \sum_(j <- js') numerator x ls rs lab' val' j i s.
Proof.
move=> S E.
have One (L J : seq nat) v : \sum_(j <- J) numerator x ls rs L v j i s =
    \sum_(k < size ls) spread (nth [::] ls k) (fun a => (\sum_(j <- J | j \in L) v k (nth r0 rs k) j i a) * build_kern x w a) s.
  under eq_bigr do rewrite numeratorE.
  rewrite -big_mkcond /=.
  under eq_bigr => j _ do rewrite (sum_zip3 (fun k l r => spread l (fun a => v k r j i a * build_kern x w a) s) r0 S).
  rewrite exchange_big /=; apply: eq_bigr => k _.
  rewrite -(big_filter _ (fun j => j \in L)) spread_sum; apply: eq_spread => a; by rewrite -big_distrl /= big_filter.
by rewrite !One; apply: eq_bigr => k _; apply: eq_spread => a; rewrite E.
Qed.

Lemma osum_quot (D : C) (l : seq nat) (F : nat -> C) : D != 0 ->
  osum [seq quot (F j) D | j <- l] = Some ((\sum_(j <- l) F j) / D).
Proof. by move=> nz; rewrite /osum osumE // add0r. Qed.

(** the classes of the columns, by their numbers *)
Lemma sum_some (cl : nat -> option nat) pre ng (F : 'I_pre -> C) :
  (forall c : 'I_pre, forall j, cl c = Some j -> (j < ng)%N) ->
  \sum_(j <- iota 0 ng) \sum_(c < pre | cl c == Some j) F c = \sum_(c < pre | isSome (cl c)) F c.
Proof.
move=> H; rewrite (exchange_big_dep xpredT) //= [RHS]big_mkcond; apply: eq_bigr => c _.
case E: (cl c) => [j|] /=; last by rewrite big1_seq // => j /andP[].
rewrite -big_filter (bigD1_seq j) ?filter_uniq ?iota_uniq //=; last by rewrite mem_filter eqxx mem_iota /= (H c).
by rewrite big_seq_cond big1 ?addr0 // => k /andP[]; rewrite mem_filter => /andP[/eqP[->] _] /eqP.
Qed.

Section Level.
Variables (n : nat) (c : costs C n) (ls : seq (seq nat)) (f : fitted C n) (b : bands C) (inc : bool).
Variable cl : nat -> nat -> option nat.
Hypotheses (FS : fit_state c ls f) (EB : c_bands c = Some b) (Am : argmin_list (ba_cent b) = 0%N).
Variable ng : nat.
(** the global classes are given to the eigenvalues outside of band 0 *)
Definition splits : Prop := forall k a, (k < size (f_res f))%N -> (a < f_pre f)%N ->
  if ba_cls b k a == 0%N then cl k a = None else exists2 j, (j < ng)%N & cl k a = Some j.
Hypothesis Sp : splits.
(** the first instant of every window is the earliest *)
Hypothesis Ft : forall k r0, (k < size (f_res f))%N -> tmin (wr_time (nth r0 (f_res f) k)) = pad (wr_time (nth r0 (f_res f) k)) 0.

Lemma window_fast k (r0 : wres C n (f_w f)) i a : (k < size (f_res f))%N ->
  all (fun j => j < ba_n b)%N (labels_of b (size (f_res f)) (f_pre f)) ->
  \sum_(j <- iota 1 (ba_n b).-1 | j \in labels_of b (size (f_res f)) (f_pre f))
     window_band x inc b k (nth r0 (f_res f) k) (f_pre f) j i a =
  \sum_(j <- iota 0 ng | j \in iota 0 ng) global_band x cl k (nth r0 (f_res f) k) (f_pre f) j i a.
Proof.
move=> K A; rewrite -[RHS]big_seq.
rewrite /window_band big_split /= [X in _ + X]big1_seq ?addr0; last first.
  by move=> j /andP[_]; rewrite mem_iota Am => /andP[/gtn_eqF J _]; rewrite J andbF.
rewrite /global_band -(Ft r0 K) -!ReD_sum; congr ('Re _); rewrite /band_sum.
rewrite (sum_by_class (P := fun j => 0 < j)%N) ?iota_uniq //; last by move=> a'; apply: labels_ofP.
  rewrite sum_some; last by move=> a' j E; have := Sp K (ltn_ord a'); rewrite E; case: ifP => // _ [j' J [->]].
  apply: eq_bigl => a'; have := Sp K (ltn_ord a'); case: eqP => [-> ->|/eqP H [j _ ->]] //; by rewrite lt0n H.
move=> a'; have := allP A _ (labels_ofP b K (ltn_ord a')); rewrite mem_iota add1n; case: (ba_n b) => // N L /=.
by rewrite L andbT.
Qed.

Lemma level_high ranks cols g lo hi i s : exp_positive (x_exp x) -> has (fun l => s \in l) ls ->
  level_bands x ranks ng cols c cl = Ok g -> scale_separation x c inc = Ok (lo, hi) ->
  osum [seq g j i s | j <- iota 0 ng] = hi i s.
Proof.
move=> EP Cov; rewrite /level_bands (fs_fit FS) (fs_windows FS) /=; case: ifP => // _.
rewrite (fs_width FS) (fs_size FS) eqxx /= => -[<-].
rewrite /scale_separation /scale_reconstruction (fs_fit FS) EB (fs_windows FS) /= (fs_width FS) (fs_size FS) eqxx /=.
case: ifP => // A /=; case: eqP => // _ [_ <-].
have D0 := denominator_gt0 EP (fs_width FS) Cov; have nz := lt0r_neq0 D0.
rewrite !osum_quot //; congr (Some (_ / _)).
have [r0 _] : exists r0 : wres C n (f_w f), True.
  by move: Cov; rewrite has_find -/(find _ ls) => L; case: (f_res f) (fs_size FS) => [E|r ? _]; [rewrite E in L | exists r].
apply: (@eq_numerators _ _ _ _ _ _ _ _ _ _ _ _ r0); first exact: fs_size FS.
by move=> k a; rewrite (fs_size FS) => K; rewrite window_fast.
Qed.
End Level.

(** ** The loop over the levels *)
Lemma matrix_ofP n T (g : 'I_n -> nat -> option C) (D : 'M[C]_(n, T)) : matrix_of T g = Some D -> forall i (s : 'I_T), g i s = Some (D i s).
Proof.
rewrite /matrix_of; case: ifP => // /forallP H [<-] i s; rewrite mxE.
by have /forallP/(_ s) := H i; case: (g i s).
Qed.

(** entries from position [a] on are the same *)
Definition same_from (a : nat) (nc nc1 : option (seq (option nat))) : Prop :=
  match nc, nc1 with
  | Some l, Some l1 => forall k, (a <= k)%N -> nth None l1 k = nth None l k
  | None, None => True
  | _, _ => False
  end.
Lemma same_refl a nc : same_from a nc nc. Proof. by case: nc. Qed.
Lemma same_count n sw nc idx (c : costs C n) tr k nc1 : level_count y sw nc idx c tr = Ok (k, nc1) -> same_from idx.+1 nc nc1.
Proof.
case: nc => // l; rewrite /level_count; case: ifP => // I; case: (if sw then None else _) => [v [_ <-] //|].
by case: (level_sweep _ _ _) => // v [_ <-] j J; rewrite nth_set_nth /= gtn_eqF.
Qed.
Lemma same_trans a b nc nc1 nc2 : (a <= b)%N -> same_from a nc nc1 -> same_from b nc1 nc2 -> same_from b nc nc2.
Proof.
case: nc nc1 nc2 => [l|] [l1|] [l2|] //= L A B k K; rewrite B // A //; exact: leq_trans K.
Qed.

(** level [idx] of the loop: new COSTS object with rank [rk], window length [w], step [st], on the data [D] *)
Definition step_run fuel n sharp T m (t : 'rV[C]_m) sw tr (gl : seq bool) nc idx (s : BinNums.Z * BinNums.Z * Model_Utils.rank_arg)
    (D : 'M[C]_(n, T)) kw (c : costs C n) kw' : Prop :=
  exists c1 N nc1 nc2,
  [/\ fit np x y fuel (new_costs C n s.2 (nth true gl idx)) kw sharp D t s.1.1 s.1.2 = Some (c1, kw', Ok tt),
      same_from idx nc nc1, level_count y sw nc1 idx c1 tr = Ok (N, nc2) & cluster_omega y c1 true N tr = Ok c].

Lemma loopP fuel n sharp T m (t : 'rV[C]_m) sw inc tr ndec gl lv idx (D : option 'M[C]_(n, T)) kw nc acc lev kw' nc' s0 c0 :
  mr_loop np x y fuel sharp t sw inc tr ndec gl lv idx D kw nc acc = Some (lev, kw', nc', Ok tt) ->
  exists new Ds kws, [/\ lev = acc ++ new, size new = size lv, kws 0%N = kw, kws (size lv) = kw' & ((0 < size lv)%N -> D = Some (Ds 0%N))] /\
  forall j, (j < size lv)%N ->
    step_run fuel sharp t sw tr gl nc (idx + j) (nth s0 lv j) (Ds j) (kws j) (nth c0 new j) (kws j.+1) /\
    ((idx + j < ndec.-1)%N -> (j.+1 < size lv)%N -> exists lo hi,
       scale_separation x (nth c0 new j) inc = Ok (lo, hi) /\ forall i (s : 'I_T), lo i s = Some (Ds j.+1 i s)).
Proof.
elim: lv idx D kw nc acc => [|[[w st] rk] lv IH] idx D kw nc acc.
  by move=> /= [<- <- _]; exists [::], (fun _ => 0), (fun _ => kw); rewrite cats0.
rewrite [mr_loop _ _ _ _ _ _ _ _ _ _ _ _ _ _ _ _ _]/=; case: ifP => // _; case: D => // X.
case F: (fit np x y fuel _ kw sharp X t w st) => [[[c1 kw1] [[]|e]]|] //.
case L: (level_count _ _ _ _ _ _) => [[k nc1]|e] //; case E: (cluster_omega _ _ _ _ _) => [c2|e] //.
have Sm := same_count L.
have Run : step_run fuel sharp t sw tr gl nc idx (w, st, rk) X kw c2 kw1.
  by exists c1, k, nc, nc1; split=> //; exact: same_refl.
have Shift j c' kwj kwj' Dj : step_run fuel sharp t sw tr gl nc1 (idx.+1 + j) (nth s0 lv j) Dj kwj c' kwj' ->
    step_run fuel sharp t sw tr gl nc (idx + j.+1) (nth s0 ((w, st, rk) :: lv) j.+1) Dj kwj c' kwj'.
  rewrite addSnnS => -[c1' [N' [nc1' [nc2' [A B G H]]]]]; exists c1', N', nc1', nc2'; split=> //.
  by apply: same_trans B; last exact: Sm; rewrite addnS ltnS leq_addr.
have Main (Dn : option 'M[C]_(n, T)) lo hi : ((idx < ndec.-1)%N -> scale_separation x c2 inc = Ok (lo, hi) /\ Dn = matrix_of T lo) ->
    mr_loop np x y fuel sharp t sw inc tr ndec gl lv idx.+1 Dn kw1 nc1 (rcons acc c2) = Some (lev, kw', nc', Ok tt) ->
    exists new Ds kws, [/\ lev = acc ++ new, size new = (size lv).+1, kws 0%N = kw, kws (size lv).+1 = kw' & ((0 < (size lv).+1)%N -> Some X = Some (Ds 0%N))] /\
    forall j, (j < (size lv).+1)%N ->
    step_run fuel sharp t sw tr gl nc (idx + j) (nth s0 ((w, st, rk) :: lv) j) (Ds j) (kws j) (nth c0 new j) (kws j.+1) /\
    ((idx + j < ndec.-1)%N -> (j.+1 < (size lv).+1)%N -> exists lo hi,
       scale_separation x (nth c0 new j) inc = Ok (lo, hi) /\ forall i (s : 'I_T), lo i s = Some (Ds j.+1 i s)).
  move=> Hs /IH [new [Ds [kws [[-> Sz K0 Ke D0] H]]]].
  exists (c2 :: new), (fun j => if j is j'.+1 then Ds j' else X), (fun j => if j is j'.+1 then kws j' else kw).
  split; first by split; rewrite ?cat_rcons //= ?Sz.
  move=> [|j] J; rewrite ?addn0 /=.
    split; first by rewrite K0.
    move=> I J'; have [S Em] := Hs I; exists lo, hi; split=> // i s; apply: matrix_ofP; rewrite -Em; exact: D0.
  have [R Nx] := H j J; split; first exact: Shift.
  by rewrite -addSnnS; exact: Nx.
case: ifP => I; last by apply: (Main _ (fun _ _ => None) (fun _ _ => None)); rewrite I.
case S: (scale_separation _ _ _) => [[lo hi]|e] //; exact: (Main _ lo hi).
Qed.
End MrP.
