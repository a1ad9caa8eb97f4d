From Coq Require List.
From mathcomp Require Import all_ssreflect all_algebra.
From Verif Require Import Py Model_Plot Model_Summary Spec_Summary.
Set Implicit Arguments. Unset Strict Implicit. Unset Printing Implicit Defensive.
Import GRing.Theory Num.Theory Order.Theory.
Local Open Scope ring_scope.

Section P.
Variable C : numClosedFieldType.
Variable K : Type.
Implicit Types (ce : seq C) (cc : seq (nat * nat)) (idx : seq nat).

Lemma flat_rcons cc p : flat (rcons cc p) = flat cc ++ [:: p.1; p.2].
Proof. by rewrite /flat map_rcons flatten_rcons. Qed.
Lemma mem_flatP cc i : reflect (exists2 p, p \in cc & (i == p.1) || (i == p.2)) (i \in flat cc).
Proof.
  apply: (iffP flatten_mapP) => [[p Hp]|[p Hp H]].
  - by rewrite !inE => H; exists p.
  - by exists p => //; rewrite !inE.
Qed.

(** every pair: a shown index with itself or with the first index of its conjugate *)
Definition good ce idx (p : nat * nat) : bool :=
  (p.1 \in idx) && (if (nth 0 ce p.1)^* \in ce then p.2 == index (nth 0 ce p.1)^* ce else p.2 == p.1).

Lemma pair_loop_good ce idx0 idx cc : all (good ce idx0) cc -> {subset idx <= idx0} ->
  all (good ce idx0) (pair_loop ce cc idx).
Proof.
  elim: idx cc => //= i idx IH cc Hcc sub. apply: IH; last by move=> j Hj; apply: sub; rewrite inE Hj orbT.
  have Hi : i \in idx0 by apply: sub; rewrite inE eqxx.
  case: ifP => [/negbTE N|/negbFE Y]; first by rewrite all_rcons Hcc andbT /good /= Hi N eqxx.
  case: ifP => // _. by rewrite all_rcons Hcc andbT /good /= Hi Y eqxx.
Qed.
Lemma pair_loop_sub ce idx cc : {subset cc <= pair_loop ce cc idx}.
Proof.
  elim: idx cc => [|i idx IH] cc p Hp //=. apply: IH. case: ifP => _; first by rewrite mem_rcons inE Hp orbT.
  by case: ifP => _ //; rewrite mem_rcons inE Hp orbT.
Qed.
Lemma flat_sub cc cc' : {subset cc <= cc'} -> {subset flat cc <= flat cc'}.
Proof. by move=> H i /mem_flatP [p Hp Hi]; apply/mem_flatP; exists p => //; apply: H. Qed.
Lemma pair_loop_cover ce idx cc i : i \in idx -> i \in flat (pair_loop ce cc idx).
Proof.
  elim: idx cc => //= j idx IH cc. rewrite inE => /orP [/eqP ->|/IH] //.
  apply: flat_sub (@pair_loop_sub ce idx _) _ _.
  case: ifP => _; first by rewrite flat_rcons mem_cat !inE eqxx ?orTb ?orbT.
  case: ifP => [_|/negbFE //]. by rewrite flat_rcons mem_cat !inE eqxx ?orTb ?orbT.
Qed.
Lemma pair_loop_size ce idx cc : (size (pair_loop ce cc idx) <= size cc + size idx)%N.
Proof.
  elim: idx cc => [|i idx IH] cc /=; first by rewrite addn0.
  apply: leq_trans (IH _) _. rewrite addnS -addSn leq_add2r.
  case: ifP => _; first by rewrite size_rcons. by case: ifP => _; rewrite ?size_rcons.
Qed.

(** with distinct eigenvalues the pairs do not overlap *)
Definition apart cc := forall p q, p \in cc -> q \in cc -> p != q -> [/\ p.1 != q.1, p.1 != q.2, p.2 != q.1 & p.2 != q.2].
Lemma pair_loop_apart ce idx cc : uniq ce -> uniq idx -> all (fun i => (i < size ce)%N) idx ->
  all (good ce (map fst cc)) cc -> all (fun p => (p.1 < size ce)%N) cc -> ~~ has (mem (map fst cc)) idx -> apart cc ->
  apart (pair_loop ce cc idx) /\ uniq (pair_loop ce cc idx) = uniq cc.
Proof.
  move=> Uc. elim: idx cc => [|i idx IH] cc //= /andP [Ni Ui] /andP [Li Lidx] G Lc.
  rewrite negb_or => /andP [Hi Hidx] A.
  have step cc' : all (good ce (map fst cc')) cc' -> all (fun p => (p.1 < size ce)%N) cc' ->
     ~~ has (mem (map fst cc')) idx -> apart cc' -> uniq cc' = uniq cc ->
     apart (pair_loop ce cc' idx) /\ uniq (pair_loop ce cc' idx) = uniq cc.
  { by move=> G' L' H' A' <-; apply: IH. }
  have widen q : all (good ce (map fst (rcons cc q))) cc.
  { apply: sub_all G => p /andP [H1 H2]; apply/andP; split => //. by rewrite map_rcons mem_rcons inE H1 orbT. }
  have fresh : ~~ has (mem (map fst (rcons cc (i, i)))) idx.
  { apply/hasPn => j Hj /=. rewrite map_rcons mem_rcons inE /= negb_or.
    move/hasPn: Hidx => /(_ j Hj) /= -> ; rewrite andbT. by apply: contraNneq Ni => <-. }
  have fresh' q : ~~ has (mem (map fst (rcons cc (i, q)))) idx.
  { move: fresh; by rewrite !map_rcons. }
  case: ifP => [N|/negbFE Y].
  - (* no conjugate *)
    have F p : p \in cc -> (i != p.1) /\ (i != p.2).
    { move=> Hp. have N1 : i != p.1 by apply: contraNneq Hi => ->; apply: map_f.
      split=> //. apply: contra_neq N1. move=> E2. move/allP: G => /(_ p Hp) /andP [_].
      case: ifP => [Y|_ /eqP <- //]. move=> /eqP E3. exfalso. move: N. rewrite E2 E3 nth_index // conjCK.
      by rewrite mem_nth //; move/allP: Lc => /(_ p Hp). }
    apply: step => //.
    + rewrite all_rcons widen andbT /good /= map_rcons mem_rcons inE eqxx /=. by rewrite (negbTE N) ?eqxx.
    + by rewrite all_rcons /= Li Lc.
    + move=> p q. rewrite !mem_rcons !inE => /orP [/eqP ->|Hp] /orP [/eqP ->|Hq]; rewrite ?eqxx //.
      * by move=> _; have [F1 F2] := F q Hq.
      * by move=> _; have [F1 F2] := F p Hp; rewrite /= ![_ == i]eq_sym.
      * exact: A.
    + rewrite rcons_uniq. have -> : (i, i) \notin cc; last by [].
      apply/negP => H. by have := F _ H; rewrite eqxx => [] [].
  - case: ifP => [Nf|/negbFE If]; last by apply: step.
    set q := index _ _.
    have Lq : (q < size ce)%N by rewrite index_mem.
    have Eq : nth 0 ce q = (nth 0 ce i)^* by rewrite nth_index.
    have Fi p : p \in cc -> (i != p.1) /\ (i != p.2).
    { move=> Hp; split; apply: contraNneq Nf => E; apply/mem_flatP; exists p => //; rewrite E eqxx ?orbT //. }
    have Fq p : p \in cc -> (q != p.1) /\ (q != p.2).
    { move=> Hp. have [F1 F2] := Fi p Hp. have Lp : (p.1 < size ce)%N by move/allP: Lc => /(_ p Hp).
      move/allP: G => /(_ p Hp) /andP [_ Gp].
      have N1 : q != p.1.
      { apply: contraNneq F2 => E. move: Gp. rewrite -E Eq conjCK mem_nth // => /eqP ->.
        by rewrite index_uniq. }
      split=> //. apply/negP => /eqP E. move: Gp. case: ifP => [Yp /eqP E2|_ /eqP E2].
      - have : nth 0 ce q = (nth 0 ce p.1)^* by rewrite E E2 nth_index.
        rewrite Eq => /(can_inj conjCK) /eqP. by rewrite nth_uniq // (negbTE F1).
      - by rewrite E E2 eqxx in N1. }
    apply: step => //.
    + by rewrite all_rcons widen andbT /good /= map_rcons mem_rcons inE eqxx /= Y ?eqxx.
    + by rewrite all_rcons /= Li Lc.
    + move=> p r. rewrite !mem_rcons !inE => /orP [/eqP ->|Hp] /orP [/eqP ->|Hr]; rewrite ?eqxx //.
      * by move=> _; have [? ?] := Fi r Hr; have [? ?] := Fq r Hr.
      * by move=> _; have [? ?] := Fi p Hp; have [? ?] := Fq p Hp; split; rewrite /= eq_sym.
      * exact: A.
    + rewrite rcons_uniq. have -> : (i, q) \notin cc; last by [].
      apply/negP => H. by have := Fi _ H; rewrite eqxx => [] [].
Qed.

Lemma paintP (cols : seq K) cc pt : paint cols cc = Ok pt ->
  (size cc <= size cols)%N /\ map fst pt = flat cc /\
  (forall i c, List.In (i, c) pt <-> exists k, [/\ (k < size cc)%N, List.nth_error cols k = Some c & (i == (nth (0, 0)%N cc k).1) || (i == (nth (0, 0)%N cc k).2)]).
Proof.
  elim: cc cols pt => [|p cc IH] [|c cols] pt //=.
  - by case=> <-; split=> //; split=> // i c; split=> // [[k []]].
  - by case=> <-; split=> //; split=> // i d; split=> // [[k []]].
  - case Er: (paint cols cc) => [r|] //= [<-]. have [H1 [H2 H3]] := IH _ _ Er. split; first by []. split.
    + by rewrite /= H2.
    + move=> i d; split.
      * case=> [[<- <-]|[[<- <-]|/H3 [k [Hk Hc Hi]]]].
        -- by exists 0%N; rewrite /= eqxx.
        -- by exists 0%N; rewrite /= eqxx orbT.
        -- by exists k.+1.
      * case=> [[|k]] [] /=.
        -- move=> _ [<-] /orP [] /eqP ->; [by left|by right; left].
        -- by move=> Hk Hc Hi; right; right; apply/H3; exists k.
Qed.
Lemma paint_ok (cols : seq K) cc : (size cc <= size cols)%N -> exists pt, paint cols cc = Ok pt.
Proof.
  elim: cc cols => [|p cc IH] [|c cols] //= H; try by eexists.
  have [r ->] := IH cols H. by eexists.
Qed.

Lemma colour_ofP (pt : seq (nat * K)) i c : colour_of pt i = Ok c -> List.In (i, c) pt.
Proof.
  rewrite /colour_of filter_rev map_rev.
  have H : forall x, List.In x [seq p.2 | p <- pt & p.1 == i] -> List.In (i, x) pt.
  { elim: pt => //= p pt IH x. case: ifP => [/eqP E|_]; last by move=> /IH; right.
    case=> [<-|/IH]; [left|by right]. by rewrite -E -surjective_pairing. }
  set l := [seq p.2 | p <- pt & p.1 == i] in H *.
  case E: (rev l) => [|d r] // [<-]. apply: H. apply/List.in_rev.
  have -> : List.rev l = rev l by elim: (l) => //= x l' ->; rewrite rev_cons -cats1.
  rewrite E. by left.
Qed.
Lemma colour_of_ok (pt : seq (nat * K)) i : i \in map fst pt -> exists c, colour_of pt i = Ok c.
Proof.
  move=> H. rewrite /colour_of filter_rev map_rev. case E: (rev _) => [|d r]; last by eexists.
  exfalso. move/(f_equal size): E. rewrite size_rev size_map /=.
  elim: pt H => //= q pt IH. rewrite inE => /orP [/eqP <-|H]; first by rewrite eqxx.
  by case: ifP => // _; apply: IH.
Qed.

Lemma sorted_counts (t : seq C) k : sorted >=%R t -> (k < size t)%N ->
  (seq.count (fun z => (nth 0 t k < z)%R) t <= k < seq.count (fun z => (nth 0 t k <= z)%R) t)%N.
Proof.
  move=> S Lk. have T : transitive (>=%R : rel C) by move=> a b c H1 H2; exact: le_trans H2 H1.
  have S' i j : (i < size t)%N -> (j < size t)%N -> (i <= j)%N -> nth 0 t j <= nth 0 t i.
  { move=> Li Lj Lij. apply: (@sorted_leq_nth _ (>=%R : rel C)) => // z; exact: lexx. }
  apply/andP; split.
  - rewrite -{2}(cat_take_drop k t) count_cat.
    have -> : seq.count (fun z => nth 0 t k < z) (drop k t) = 0%N.
    { apply/eqP; rewrite -leqn0 leqNgt -has_count; apply/hasPn => z /(nthP 0) [j Lj <-].
      rewrite nth_drop. rewrite size_drop ltn_subRL in Lj. apply/negP => /lt_geF. by rewrite S' // leq_addr. }
    rewrite addn0. apply: leq_trans (count_size _ _) _. by rewrite size_takel // ltnW.
  - rewrite -{2}(cat_take_drop k.+1 t) count_cat. apply: leq_trans (leq_addr _ _).
    have /eqP -> : seq.count (fun z => (nth 0 t k <= z)%R) (take k.+1 t) == size (take k.+1 t).
    { rewrite -all_count; apply/(all_nthP 0) => j. rewrite size_takel // => Lj. rewrite nth_take //.
      by apply: S' => //; apply: leq_trans Lk. }
    by rewrite size_takel.
Qed.

Lemma argsort_significance f (amps : seq C) k : argsort_ok f -> (k < size amps)%N ->
  significance amps k (nth 0%N (f [seq - `|z| | z <- amps]) k).
Proof.
  move=> Hf Lk. have R : all (fun z => z \is Num.real) [seq - `|z| | z <- amps].
  { by apply/allP => z /mapP [w _ ->]; rewrite realN normr_real. }
  have [P S] := Hf _ R. set o := f _ in P S *. rewrite size_map in P.
  have So : size o = size amps by rewrite (perm_size P) size_iota.
  set t := [seq `|nth 0 amps i| | i <- o].
  have Pt : perm_eq [seq `|z| | z <- amps] t.
  { rewrite -{1}(mkseq_nth 0 amps) /mkseq -map_comp perm_sym /t.
    rewrite (map_comp (fun z : C => `|z|) (nth 0 amps)) (map_comp (fun z : C => `|z|) (nth 0 amps)).
    by do 2!apply: perm_map. }
  have Ht : nth 0 t k = `|nth 0 amps (nth 0%N o k)| by rewrite (nth_map 0%N) ?So.
  have St : sorted >=%R t.
  { move: S. rewrite !sorted_map. apply: (@sub_in_sorted _ (mem (iota 0 (size amps)))).
    - move=> i j Hi Hj. rewrite /relpre /=.
      have {}Hi : (i < size amps)%N by move: (Hi : i \in iota 0 (size amps)); rewrite mem_iota.
      have {}Hj : (j < size amps)%N by move: (Hj : j \in iota 0 (size amps)); rewrite mem_iota.
      by rewrite !(nth_map 0) // ler_opp2.
    - by apply/allP => i Hi; have : i \in iota 0 (size amps) by rewrite -(perm_mem P). }
  have := @sorted_counts t k St. rewrite size_map So => /(_ Lk). rewrite Ht /significance.
  have E (a : pred C) : seq.count a t = seq.count (fun z => a `|z|) amps.
  { by rewrite -(permP Pt a) count_map. }
  by rewrite !E.
Qed.
End P.
