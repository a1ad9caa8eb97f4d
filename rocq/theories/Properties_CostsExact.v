(** * C44 again: windows fitted exactly, and what can go wrong *)
From Coq Require Import QArith.
From mathcomp Require Import all_ssreflect all_fingroup all_algebra.
From Verif Require Import Py LinAlg Model_Operator Model_BOP Model_CostsWin Model_Costs Spec_Costs Spec_CostsWin.
From Verif Require Import Proofs_CostsWin Proofs_Costs Proofs_CostsBand Proofs_CostsFit Proofs_CostsLoop Properties_Costs.
From Verif Require Model_Utils.
Set Implicit Arguments. Unset Strict Implicit. Unset Printing Implicit Defensive.
Import Order.TTheory GRing.Theory Num.Theory.
Local Open Scope ring_scope.
Local Notation "# n" := (BinInt.Z.of_nat n) (at level 5, format "# n").

Section Exact.
Variable C : numClosedFieldType.
Variable np : numpy C.
Variable x : ext C.
Variable y : cext C.

(** the average of the data of variable [i] over the window [l] *)
Definition mean_over n T (X : 'M[C]_(n, T)) (l : seq nat) (i : 'I_n) : C := (\sum_(s <- l) cell X i s) / (size l)%:R.

Lemma nth_sum (l : seq nat) w (h : nat -> C) : size l = w -> \sum_(a < w) h (nth 0%N l a) = \sum_(s <- l) h s.
Proof. by move=> <-; rewrite (big_nth 0%N) big_mkord. Qed.

Lemma bias (z m k : C) : (z - m) * k + m = z + (k - 1) * (z - m).
Proof. by rewrite [(k - 1) * _]mulrBl mul1r addrCA opprB [z + (m - z)]addrC subrK [k * _]mulrC. Qed.

(** Suppose every window's decomposition reproduces what it was given: the data of the window minus its mean, times the kernel.
    Then the reconstruction is the data plus a bias towards the means of the windows, given by the kernel. *)
Theorem C44_exact fuel n (c : costs C n) kw sharp T (X : 'M[C]_(n, T)) (t : 'rV[C]_T) (w d : nat) c1 kw1 f b G (s : nat) i
    (r0 : wres C n (f_w f)) :
  (0 < w)%N -> (0 < d)%N -> rounds (y_fl y) #T #w -> exp_positive (x_exp x) ->
  (forall i s, X i s \is Num.real) ->
  fit np x y fuel c kw sharp X t #w #d = Some (c1, kw1, Ok tt) -> c_fit c1 = Some f ->
  let c2 := Costs (c_cfg c1) (c_win c1) (c_fit c1) (Some b) in
  lowest_used f b -> global_reconstruction x c2 true = Ok G ->
  (forall k (a : 'I_(f_w f)), (k < size (listed T w d))%N ->
     let r := nth r0 (f_res f) k in let l := nth [::] (listed T w d) k in
     'Re (expansion (x_exp x) (wr_modes r) (wr_eigs r) (wr_amps r) (wr_time r 0 a - tmin (wr_time r)) i 0)
     = (cell X i (nth 0%N l a) - mean_over X l i) * lv_kern y sharp w a) ->
  has (fun l => s \in l) (listed T w d) ->
  exists wt, weights (listed T w d) s wt /\
    G i s = Some (cell X i s + \sum_(k < size (listed T w d)) wt k *
       ((lv_kern y sharp w (index s (nth [::] (listed T w d) k)) - 1) * (cell X i s - mean_over X (nth [::] (listed T w d) k) i))).
Proof.
move=> w0 d0 R EP RX F Ef c2 LU HG Ex Hs.
have [_ _ [f' FS]] := fit_stateP w0 d0 R F.
have Ef' : f' = f by move: (fs_fit FS); rewrite Ef => -[].
rewrite {f'}Ef' in FS.
have FS2 : fit_state c2 (listed T w d) f by case: FS => *; split.
have [wt [W A]] := C44_average r0 EP FS2 erefl (fun _ => LU) HG Hs; exists wt; split=> //.
pose v (k : nat) := (cell X i s - mean_over X (nth [::] (listed T w d) k) i) * lv_kern y sharp w (index s (nth [::] (listed T w d) k))
  + mean_over X (nth [::] (listed T w d) k) i.
have RC j : cell X i j \is Num.real by rewrite /cell; case: insubP => [u _ _|_]; rewrite ?RX ?real0.
have RM l : mean_over X l i \is Num.real.
  by rewrite /mean_over rpredM ?rpredV ?realn //; apply: rpred_sum => j _; apply: RC.
rewrite (A i v); last first.
  move=> k a K Ea; rewrite /window_value Ex //= /v.
  have Sk : size (nth [::] (listed T w d) k) = f_w f by move/allP: (fs_width FS) => /(_ _ (mem_nth [::] K)) /eqP.
  have Uk : uniq (nth [::] (listed T w d) k) by move/allP: (listed_uniq T w d); apply; apply: mem_nth.
  have Ea' : index s (nth [::] (listed T w d) k) = a by rewrite -Ea index_uniq ?Sk.
  rewrite Ea Ea'; congr (_ + _).
  have [e [g [pre [al [rk [s1 [rs [[Al In Rk Lo E1] Wi]]]]]]]] := fit_inv w0 d0 R F.
  move: Ef; rewrite E1 => -[Ef]; move: r0 a Sk Ex {Ea Ea' A FS FS2 LU HG c2}; rewrite -Ef /= => r0 a Sk _.
  have [S H] := loop_stores Lo; have [d' [[d1 [_ [q [r' [u [_ [-> _]]]]]]] _]] := H k K r0.
  rewrite /= /wmean mxE (Creal_ReP _ _) //.
    by rewrite /mean_over -(nth_sum _ Sk) Sk; congr (_ / _); apply: eq_bigr => j _; rewrite mxE.
  by rewrite rpredM ?rpredV ?realn //; apply: rpred_sum => j _; rewrite mxE.
congr Some; under eq_bigr => k _ do rewrite /v bias mulrDr.
by rewrite big_split /= -big_distrl /= (wt_sum W) mul1r.
Qed.

(** refitting keeps the bands of the former data; nothing warns that they belong to other eigenvalues *)
Theorem C44_stale_refuted fuel n (c : costs C n) kw sharp T (X : 'M[C]_(n, T)) m (t : 'rV[C]_m) (w d : BinNums.Z) c' kw' r :
  fit np x y fuel c kw sharp X t w d = Some (c', kw', r) -> c_bands c' = c_bands c.
Proof.
rewrite /fit; case: (fit_windows _ _ _ _ _ _ _) => s1 [[]|e]; last by move=> [<-].
case: (@eqP _ m T) => // [E|_]; last by move=> [<-].
case: (allocate _ _ _ _) => [[[g kw1] pre]|e]; last by move=> [<-].
case: (initialization _ _) => [al|e]; last by move=> [<-].
case: (all_windows s1) => [ls|e]; last by move=> [<-].
case: (cc_rank g) => [rk|]; last by move=> [<-].
by case: (fit_loop _ _ _ _ _ _ _ _ _ _ _ _ _ _ _) => [[rs|e]|] // [<-].
Qed.

(** when no eigenvalue is in the band of the smallest centroid, asking for the means has no effect *)
Theorem C44_means_refuted n (c : costs C n) f b G G' : c_fit c = Some f -> c_bands c = Some b ->
  ~ lowest_used f b -> global_reconstruction x c true = Ok G -> global_reconstruction x c false = Ok G' -> forall i s, G i s = G' i s.
Proof.
move=> Ef Eb NU; rewrite /global_reconstruction /scale_reconstruction Ef Eb.
case: (all_windows (c_win c)) => //= ls; case: ifP => // _; case: ifP => // _ /= [<-] [<-] i s; congr osum.
apply/eq_in_map => j _; congr quot; rewrite /numerator; case J: (j \in _); last by [].
have Nj : j != argmin_list (ba_cent b).
  apply/negP => /eqP Ej; apply: NU; move: J; rewrite mem_undup mem_sort => /flattenP[l /mapP[k]].
  rewrite mem_iota add0n => /andP[_ K] -> /mapP[a]; rewrite mem_iota add0n => /andP[_ A] E.
  by exists k, a; split=> //; rewrite -E.
elim: (zip _ _) 0 => //= p l IH z; rewrite -IH; congr foldl; congr (_ + _); rewrite /spread; apply: eq_bigr => a _.
by rewrite /window_band (negbTE Nj) andbF.
Qed.
End Exact.
Print Assumptions C44_exact.
Print Assumptions C44_stale_refuted.
Print Assumptions C44_means_refuted.
