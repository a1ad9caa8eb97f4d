(** * C44: the reconstruction of COSTS *)
From Coq Require Import QArith.
From mathcomp Require Import all_ssreflect all_fingroup all_algebra.
From Verif Require Import Py LinAlg Model_Operator Model_BOP Model_CostsWin Model_Costs Spec_Costs Spec_CostsWin.
From Verif Require Import Proofs_CostsWin Proofs_Costs Proofs_CostsBand Proofs_CostsFit.
From Verif Require Model_Utils.
Set Implicit Arguments. Unset Strict Implicit. Unset Printing Implicit Defensive.
Import Order.TTheory GRing.Theory Num.Theory.
Local Open Scope ring_scope.
Local Notation "# n" := (BinInt.Z.of_nat n) (at level 5, format "# n").

Section C44.
Variable C : numClosedFieldType.
Variable np : numpy C.
Variable x : ext C.
Variable y : cext C.

(** what window [r] says about variable [i] at its [a]-th time step: its DMD expansion, plus its mean when asked *)
Definition window_value (inc : bool) n w (r : wres C n w) (i : 'I_n) (a : 'I_w) : C :=
  'Re (expansion (x_exp x) (wr_modes r) (wr_eigs r) (wr_amps r) (wr_time r 0 a - tmin (wr_time r)) i 0)
  + (if inc then 'Re (wr_mean r i 0) else 0).

(** the band that receives the means occurs among the labels *)
Definition lowest_used n (f : fitted C n) (b : bands C) : Prop :=
  exists k c, [/\ (k < size (f_res f))%N, (c < f_pre f)%N & ba_cls b k c = argmin_list (ba_cent b)].

Section Fixed.
Variables (n : nat) (c : costs C n) (ls : seq (seq nat)) (f : fitted C n) (b : bands C) (inc : bool).
Variable G : 'I_n -> nat -> option C.
Hypotheses (EP : exp_positive (x_exp x)) (FS : fit_state c ls f) (EB : c_bands c = Some b).
Hypotheses (LU : inc -> lowest_used f b) (HG : global_reconstruction x c inc = Ok G).

Lemma GE : exists g, scale_reconstruction x c inc = Ok g /\ G = (fun i s => osum [seq g j i s | j <- iota 0 (ba_n b)]).
Proof. by move: HG; rewrite /global_reconstruction EB; case: (scale_reconstruction _ _ _) => // g [<-]; exists g. Qed.

Lemma sepE g : scale_reconstruction x c inc = Ok g ->
  let lab := labels_of b (size (f_res f)) (f_pre f) in
  all (fun j => j < ba_n b)%N lab /\
  g = (fun j i s => quot (numerator x ls (f_res f) lab (fun k r => window_band x inc b k r (f_pre f)) j i s)
                         (denominator x (f_w f) ls s)).
Proof.
rewrite /scale_reconstruction (fs_fit FS) EB (fs_windows FS) /= (fs_width FS) (fs_size FS) eqxx /=.
by case: ifP => // A [<-].
Qed.

Lemma averageE (s : nat) i (v : nat -> C) (r0 : wres C n (f_w f)) : has (fun l => s \in l) ls ->
  (forall k (a : 'I_(f_w f)), (k < size ls)%N -> nth 0%N (nth [::] ls k) a = s ->
     v k = window_value inc (nth r0 (f_res f) k) i a) ->
  G i s = Some (\sum_(k < size ls) wgt x (f_w f) ls s k * v k).
Proof.
move=> H V; have [g [Eg ->]] := GE; have [A ->] := sepE Eg.
apply: (bands_average (v := v) (r0 := r0)) => //; rewrite ?(fs_size FS) ?(fs_width FS) //.
move=> k a K Ea; have K2 : (k < size ls)%N by rewrite (fs_size FS).
rewrite (V k a K2 Ea); apply: window_bands_all => //; first exact: fs_rank FS k r0 K2.
move=> I; have [k' [c' [K' C' <-]]] := LU I; exact: labels_ofP.
Qed.
End Fixed.

(** At a covered time step the global reconstruction is a convex combination of what the windows that contain it say;
    the weights do not depend on the variable. *)
Theorem C44_average n (c : costs C n) ls f b (inc : bool) G (s : nat) (r0 : wres C n (f_w f)) :
  exp_positive (x_exp x) -> fit_state c ls f -> c_bands c = Some b -> (inc -> lowest_used f b) ->
  global_reconstruction x c inc = Ok G -> has (fun l => s \in l) ls ->
  exists wt, weights ls s wt /\
    forall i (v : nat -> C),
      (forall k (a : 'I_(f_w f)), (k < size ls)%N -> nth 0%N (nth [::] ls k) a = s ->
         v k = window_value inc (nth r0 (f_res f) k) i a) ->
      G i s = Some (\sum_(k < size ls) wt k * v k).
Proof.
move=> EP FS EB LU HG H; exists (wgt x (f_w f) ls s); split.
  by apply: wgt_weights => //; exact: fs_width FS.
move=> i v V; exact: (averageE EP FS EB LU HG H V).
Qed.

(** windows that agree at a time step are reproduced there *)
Theorem C44_agree n (c : costs C n) ls f b (inc : bool) G (s : nat) i v (r0 : wres C n (f_w f)) :
  exp_positive (x_exp x) -> fit_state c ls f -> c_bands c = Some b -> (inc -> lowest_used f b) ->
  global_reconstruction x c inc = Ok G -> has (fun l => s \in l) ls ->
  (forall k (a : 'I_(f_w f)), (k < size ls)%N -> nth 0%N (nth [::] ls k) a = s ->
     window_value inc (nth r0 (f_res f) k) i a = v) ->
  G i s = Some v.
Proof.
move=> EP FS EB LU HG H V; have [wt [W A]] := C44_average r0 EP FS EB LU HG H.
rewrite (A i (fun=> v)); first by rewrite -big_distrl /= (wt_sum W) mul1r.
by move=> k a K Ea; rewrite V.
Qed.

(** the reconstruction lies between bounds that hold for every window *)
Theorem C44_between n (c : costs C n) ls f b (inc : bool) G (s : nat) i lo hi (r0 : wres C n (f_w f)) :
  exp_positive (x_exp x) -> fit_state c ls f -> c_bands c = Some b -> (inc -> lowest_used f b) ->
  global_reconstruction x c inc = Ok G -> has (fun l => s \in l) ls -> all uniq ls ->
  (forall k (a : 'I_(f_w f)), (k < size ls)%N -> nth 0%N (nth [::] ls k) a = s ->
     lo <= window_value inc (nth r0 (f_res f) k) i a <= hi) ->
  exists2 v, G i s = Some v & lo <= v <= hi.
Proof.
move=> EP FS EB LU HG H U V; have [wt [W A]] := C44_average r0 EP FS EB LU HG H.
pose at_ k : C := if insub (index s (nth [::] ls k)) is Some a then window_value inc (nth r0 (f_res f) k) i a else lo.
have At k (a : 'I_(f_w f)) : (k < size ls)%N -> nth 0%N (nth [::] ls k) a = s -> at_ k = window_value inc (nth r0 (f_res f) k) i a.
  move=> K Ea; have Uk : uniq (nth [::] ls k) by move/allP: U; apply; apply: mem_nth.
  have Sk : size (nth [::] ls k) = f_w f by move/allP: (fs_width FS) => /(_ _ (mem_nth [::] K)) /eqP.
  by rewrite /at_ -Ea index_uniq ?Sk // insubT // => L; congr window_value; apply: val_inj.
have B (k : 'I_(size ls)) : wt k * lo <= wt k * at_ k <= wt k * hi.
  have [M|N] := boolP (s \in nth [::] ls k); last by rewrite (wt_local W N) !mul0r lexx.
  have Sk : size (nth [::] ls k) = f_w f by move/allP: (fs_width FS) => /(_ _ (mem_nth [::] (ltn_ord k))) /eqP.
  have L : (index s (nth [::] ls k) < f_w f)%N by rewrite -Sk index_mem.
  have Ea : nth 0%N (nth [::] ls k) (Ordinal L) = s by rewrite /= nth_index.
  rewrite (At k (Ordinal L)) //; have /andP[X Y] := V k (Ordinal L) (ltn_ord k) Ea.
  by rewrite !ler_wpmul2l ?(wt_ge0 W).
exists (\sum_(k < size ls) wt k * at_ k); first by apply: A => k a K Ea; rewrite (At k a).
rewrite -{1}[lo]mul1r -[X in _ <= _ <= X]mul1r -(wt_sum W) !big_distrl /=; apply/andP; split; apply: ler_sum => k _; by case/andP: (B k).
Qed.

(** the low and the high frequency part add up to the global reconstruction, NaN included *)
Theorem C44_separation n (c : costs C n) inc G lo hi :
  global_reconstruction x c inc = Ok G -> scale_separation x c inc = Ok (lo, hi) ->
  forall i s, G i s = oadd (lo i s) (hi i s).
Proof.
rewrite /global_reconstruction /scale_separation; case: (scale_reconstruction _ _ _) => // g.
case: (c_bands c) => // b /= [<-]; case: eqP => // /eqP N [<- <-] i s.
by rewrite -osum_cons; case: (ba_n b) N.
Qed.

(** at a time step that no window contains every band is NaN *)
Theorem C44_uncovered n (c : costs C n) ls f inc g (s : nat) :
  fit_state c ls f -> scale_reconstruction x c inc = Ok g -> ~~ has (fun l => s \in l) ls ->
  forall j i, g j i s = None.
Proof.
move=> FS; rewrite /scale_reconstruction (fs_fit FS) (fs_windows FS) /= (fs_width FS) (fs_size FS) eqxx.
case: (c_bands c) => // b /=; case: ifP => // _ [<-] H j i; rewrite /quot denominatorE big_seq big1 ?eqxx // => l M.
rewrite spread_out //; first by move/allP: (fs_width FS) => /(_ _ M) /eqP.
by apply/negP => M'; case/negP: H; apply/hasP; exists l.
Qed.

(** ** the whole pipeline: fit, cluster, reconstruct *)
Theorem C44_pipeline fuel n (c : costs C n) kw sharp T (X : 'M[C]_(n, T)) m (t : 'rV[C]_m) (w d : nat) c1 kw1 N tr c2 inc :
  kmeans_ok (y_kmeans y) -> argsort_ok (y_argsort y) -> is_log (y_log10 y) ->
  (0 < w)%N -> (0 < d)%N -> rounds (y_fl y) #T #w ->
  fit np x y fuel c kw sharp X t #w #d = Some (c1, kw1, Ok tt) ->
  cluster_omega y c1 true N tr = Ok c2 ->
  exists f b G, [/\ tiling T w d (listed T w d), fit_state c2 (listed T w d) f, c_bands c2 = Some b,
     ba_n b = N & global_reconstruction x c2 inc = Ok G].
Proof.
move=> KM AS LG w0 d0 R F; have [wT _ [f FS]] := fit_stateP w0 d0 R F.
rewrite /cluster_omega /= (fs_fit FS) /= => E.
case: tr E => [tr|] // E; rewrite [transform_omega _ _ _]/(transform_named _ _ _) in E.
move: E; case E: (cluster_values _ _ _) => [[cent cls]|] //= [<-].
pose b := Bands N (fun a b => nth 0%N cls (a * f_pre f + b)%N) cent.
have FS2 : fit_state (Costs (c_cfg c1) (c_win c1) (c_fit c1) (Some b)) (listed T w d) f by case: FS => *; split.
have L : all (fun j => (j < ba_n b)%N) (labels_of b (size (f_res f)) (f_pre f)).
  apply/allP => j; rewrite mem_undup mem_sort => /flattenP[l /mapP[k]]; rewrite mem_iota add0n => /andP[_ K] -> /mapP[a].
  rewrite mem_iota add0n => /andP[_ A] ->; apply: (cluster_range KM AS LG E); rewrite size_blocks; exact: block_lt.
have [G HG] : exists G, global_reconstruction x (Costs (c_cfg c1) (c_win c1) (c_fit c1) (Some b)) inc = Ok G.
  rewrite /global_reconstruction /scale_reconstruction /= (fs_fit FS) (fs_windows FS) /= (fs_width FS) (fs_size FS) eqxx /= L /=.
  by eexists.
exists f, b, G; split=> //.
- by apply: listed_tiling; first [exact/ssrnat.ltP | exact/ssrnat.leP].
- by rewrite -(fs_fit FS).
- by rewrite -(fs_fit FS).
Qed.

End C44.
Print Assumptions C44_average.
Print Assumptions C44_agree.
Print Assumptions C44_between.
Print Assumptions C44_separation.
Print Assumptions C44_uncovered.
Print Assumptions C44_pipeline.
