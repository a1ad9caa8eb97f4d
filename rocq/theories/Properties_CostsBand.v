(** * C45: the frequency bands of COSTS *)
From Coq Require Import QArith.
From mathcomp Require Import all_ssreflect all_fingroup all_algebra.
From Verif Require Import Py LinAlg Model_Operator Model_BOP Model_CostsWin Model_Costs Spec_Costs.
From Verif Require Import Proofs_Costs Proofs_CostsBand Proofs_CostsFit.
Set Implicit Arguments. Unset Strict Implicit. Unset Printing Implicit Defensive.
Import Order.TTheory GRing.Theory Num.Theory.
Local Open Scope ring_scope.

Section C45.
Variable C : numClosedFieldType.
Variable x : ext C.
Variable y : cext C.
Hypotheses (KM : kmeans_ok (y_kmeans y)) (AS : argsort_ok (y_argsort y)) (LG : is_log (y_log10 y)).

(** the frequency of eigenvalue [c] of window [k]: the size of its imaginary part *)
Definition freq n (f : fitted C n) (k c : nat) : C := `|'Im (omega_at f k c)|.
(** the entry [k, c] exists *)
Definition entry n (f : fitted C n) (k c : nat) : Prop := (k < size (f_res f))%N /\ (c < f_pre f)%N.

Lemma clusterP n (c c' : costs C n) f N tr : c_fit c = Some f -> cluster_omega y c true N tr = Ok c' ->
  exists tr' cent' cls', [/\ tr = Some tr', cluster_values y N (transform_named y tr' (flat_omega f)) = Ok (cent', cls')
    & c' = Costs (c_cfg c) (c_win c) (Some f) (Some (Bands N (fun a b => nth 0%N cls' (a * f_pre f + b)%N) cent'))].
Proof.
rewrite /cluster_omega /= => ->; case: tr => [tr|] //=; case E: (cluster_values _ _ _) => [[cent' cls']|] //= [<-].
by exists tr, cent', cls'.
Qed.
Lemma flat_size n (f : fitted C n) : size (flat_omega f) = (size (f_res f) * f_pre f)%N.
Proof. exact: size_blocks. Qed.
Lemma flat_nth n (f : fitted C n) k c : entry f k c -> nth 0 (flat_omega f) (k * f_pre f + c) = omega_at f k c.
Proof. by case=> K L; rewrite /flat_omega nth_blocks. Qed.
Lemma flat_lt n (f : fitted C n) k c : entry f k c -> (k * f_pre f + c < size (flat_omega f))%N.
Proof. by case=> K L; rewrite flat_size block_lt. Qed.

Lemma argmin_sorted (l : seq C) : sorted <=%O l -> argmin_list l = 0%N.
Proof.
case: l => //= a l; rewrite (path_sortedE le_trans) => /andP[A _]; by rewrite /argmin_list /= lexx A.
Qed.

Lemma min_exists (l : seq C) : all (fun z => z \is Num.real) l -> l != [::] -> exists2 m, m \in l & all (fun b => m <= b) l.
Proof.
elim: l => // a l IH; rewrite [all _ _]/= => /andP[Ra R] _.
case: l IH R => [|b l] IH R; first by exists a; rewrite ?mem_head //= lexx.
have [//|m M A] := IH R; have Rm : m \is Num.real by apply: (allP R _ M).
case/orP: (real_leVge Ra Rm) => L; last by exists m; [rewrite in_cons M orbT | rewrite [all _ _]/= L].
exists a; rewrite ?mem_head //; suff B : all (fun b => a <= b) (b :: l) by rewrite -cat1s all_cat B /= lexx.
by apply/allP => z /(allP A); exact: le_trans.
Qed.
Lemma smallest_some (l : seq C) : all (fun z => z \is Num.real) l -> l != [::] -> smallest l <> None.
Proof.
move=> R N; have [m M A] := min_exists R N; rewrite /smallest.
have: m \in [seq a <- l | all (fun b => a <= b) l] by rewrite mem_filter A.
by case: (filter _ _).
Qed.
Lemma flatP n (f : fitted C n) z : z \in flat_omega f -> exists k a, entry f k a /\ z = omega_at f k a.
Proof.
move/flattenP => [l /mapP[k]]; rewrite mem_iota add0n => /andP[_ K] -> /mapP[a].
by rewrite mem_iota add0n => /andP[_ A] ->; exists k, a.
Qed.

(** N bands; their centroids increase; every eigenvalue is in one of them; the first band is the one that is given the
    means; nothing else changes *)
Theorem C45_bands n (c c' : costs C n) f N tr : c_fit c = Some f -> cluster_omega y c true N tr = Ok c' ->
  exists b, [/\ c_bands c' = Some b, ba_n b = N /\ size (ba_cent b) = N, sorted <=%O (ba_cent b),
      argmin_list (ba_cent b) = 0%N & forall k a, entry f k a -> (ba_cls b k a < N)%N] /\
    [/\ c_fit c' = c_fit c, c_win c' = c_win c & c_cfg c' = c_cfg c].
Proof.
move=> F /(clusterP F) [tr' [cent [cls [_ E ->]]]]; eexists; split; last by rewrite F.
split; first reflexivity => /=.
- by split=> //; case: (cluster_size KM AS LG E).
- exact: (cluster_sorted KM AS LG E).
- exact: argmin_sorted (cluster_sorted KM AS LG E).
- by move=> k a H; apply: (cluster_range KM AS LG E); apply: flat_lt.
Qed.

(** the bands are the clusters of the clustering, with its centroids: only renumbered *)
Theorem C45_renumbered n (c c' : costs C n) f b N tr : c_fit c = Some f -> cluster_omega y c true N tr = Ok c' ->
  c_bands c' = Some b -> exists l, transform_omega y tr (flat_omega f) = Ok [seq Some v | v <- l] /\
    let labels := (y_kmeans y N l).1 in let cent := (y_kmeans y N l).2 in
    [/\ perm_eq (ba_cent b) cent,
        forall k a, entry f k a -> nth 0 (ba_cent b) (ba_cls b k a) = nth 0 cent (nth 0%N labels (k * f_pre f + a))
      & forall k a k' a', entry f k a -> entry f k' a' ->
          (ba_cls b k a == ba_cls b k' a') = (nth 0%N labels (k * f_pre f + a) == nth 0%N labels (k' * f_pre f + a'))].
Proof.
move=> F /(clusterP F) [tr' [cent [cls [-> E ->]]]] [<-] /=.
exists [seq transform_value y tr' (flat_omega f) z | z <- flat_omega f]; split.
  move: (E); rewrite /cluster_values; case T: (transform_named _ _ _) => [l0|] //=.
  case Fi: (all_finite l0) => [l1|] //= _; rewrite -(transformE T Fi); congr Ok.
  move: Fi; rewrite /all_finite; case: ifP => // A [<-]; elim: (l0) A => //= -[v|] //= t IH A; by rewrite -IH.
split.
- exact: (cluster_perm KM AS LG E).
- by move=> k a H; rewrite (cluster_keeps KM AS LG E) ?flat_lt.
- by move=> k a k' a' H H'; rewrite (cluster_same KM AS LG E) ?flat_lt.
Qed.

(** bands are ordered by frequency: every eigenvalue of a lower band is slower than every one of a higher band *)
Theorem C45_order n (c c' : costs C n) f b N tr : c_fit c = Some f -> cluster_omega y c true N tr = Ok c' ->
  c_bands c' = Some b -> uniq (ba_cent b) -> tr <> Some Period ->
  forall k a k' a', entry f k a -> entry f k' a' -> (ba_cls b k a < ba_cls b k' a')%N -> freq f k a < freq f k' a'.
Proof.
move=> F /(clusterP F) [tr' [cent [cls [-> E ->]]]] [<-] /= U NP k a k' a' H H' L.
have U' : uniq (y_kmeans y N [seq transform_value y tr' (flat_omega f) z | z <- flat_omega f]).2.
  by rewrite -(perm_uniq (cluster_perm KM AS LG E)).
have := cluster_freq KM AS LG E U' (flat_lt H) (flat_lt H') L; rewrite !flat_nth //.
by case: tr' NP {E U'} => // NP; case: NP.
Qed.

(** with the "period" transform the order is the opposite: the first band, which is the one used as low frequency part and
    given the means, holds the fastest eigenvalues *)
Theorem C45_period_refuted n (c c' : costs C n) f b N : c_fit c = Some f ->
  cluster_omega y c true N (Some Period) = Ok c' -> c_bands c' = Some b -> uniq (ba_cent b) ->
  forall k a k' a', entry f k a -> entry f k' a' -> (ba_cls b k a < ba_cls b k' a')%N -> freq f k' a' < freq f k a.
Proof.
move=> F /(clusterP F) [tr' [cent [cls [[<-] E ->]]]] [<-] /= U k a k' a' H H' L.
have U' : uniq (y_kmeans y N [seq transform_value y Period (flat_omega f) z | z <- flat_omega f]).2.
  by rewrite -(perm_uniq (cluster_perm KM AS LG E)).
by have := cluster_freq KM AS LG E U' (flat_lt H) (flat_lt H') L; rewrite !flat_nth.
Qed.

(** eigenvalues of the same frequency, a conjugate pair for example, are in the same band *)
Theorem C45_pairs n (c c' : costs C n) f b N tr : c_fit c = Some f -> cluster_omega y c true N tr = Ok c' ->
  c_bands c' = Some b ->
  forall k a k' a', entry f k a -> entry f k' a' -> freq f k a = freq f k' a' -> ba_cls b k a = ba_cls b k' a'.
Proof.
move=> F /(clusterP F) [tr' [cent [cls [_ E ->]]]] [<-] /= k a k' a' H H' Q.
apply/eqP; rewrite (cluster_same KM AS LG E) ?flat_lt //; apply/eqP.
have [_ K _ _] := cluster_namedP KM AS LG E.
apply: (km_same K); rewrite ?size_map ?flat_lt // !(nth_map 0) ?flat_lt // !flat_nth //.
have Q' : abs_im (omega_at f k a) = abs_im (omega_at f k' a') by exact: Q.
case: tr' {E K} => /=; rewrite ?Q' //.
by rewrite -(real_normK (Creal_Im (omega_at f k a))) -(real_normK (Creal_Im (omega_at f k' a'))) -!/(abs_im _) Q'.
Qed.

(** ** What is refused *)
(** the documented default, no transform, is always refused *)
Theorem C45_default_refuted n (c : costs C n) f N : c_fit c = Some f -> cluster_omega y c true N None = Err ValueError.
Proof. by rewrite /cluster_omega => ->. Qed.
(** a clustering class without fit_predict: not the documented ValueError *)
Theorem C45_method_refuted n (c : costs C n) N tr : cluster_omega y c false N tr = Err AttributeError.
Proof. by []. Qed.
(** an eigenvalue of frequency zero, or an unused slot, makes "period" fail *)
Theorem C45_period_zero n (c : costs C n) f N k a : c_fit c = Some f -> entry f k a -> freq f k a = 0 ->
  cluster_omega y c true N (Some Period) = Err ValueError.
Proof.
move=> F H Z; rewrite /cluster_omega /= F /= /cluster_values /= /all_finite; case: ifP => // A.
have : isSome (nth None [seq if abs_im z == 0 then None else Some (abs_im z)^-1 | z <- flat_omega f] (k * f_pre f + a)).
  by move/allP: A; apply; apply: mem_nth; rewrite size_map flat_lt.
by rewrite (nth_map 0) ?flat_lt // flat_nth // /abs_im -/(freq f k a) Z eqxx.
Qed.
(** more bands than eigenvalues, or none *)
Theorem C45_count n (c : costs C n) f N tr : c_fit c = Some f -> ~~ (0 < N <= size (f_res f) * f_pre f)%N ->
  exists e, cluster_omega y c true N tr = Err e.
Proof.
move=> F H; case E: (cluster_omega _ _ _ _ _) => [c'|e]; last by exists e.
have [tr' [cent [cls [_ E' _]]]] := clusterP F E; have [N' _ _ _] := cluster_namedP KM AS LG E'.
by move: H; rewrite -flat_size N'.
Qed.
(** but for those, and an unknown name, clustering succeeds *)
Theorem C45_succeeds n (c : costs C n) f N tr : c_fit c = Some f -> (0 < N <= size (f_res f) * f_pre f)%N ->
  tr = Absolute \/ tr = Squares \/ tr = Log10 /\ (exists k a, entry f k a /\ freq f k a != 0)
  \/ tr = Period /\ (forall k a, entry f k a -> freq f k a != 0) ->
  exists c', cluster_omega y c true N (Some tr) = Ok c'.
Proof.
move=> F N0 H; rewrite /cluster_omega /= F /=.
have Z k a (E : entry f k a) : abs_im (nth 0 (flat_omega f) (k * f_pre f + a)) = freq f k a by rewrite flat_nth.
have [l0 T A] : exists2 l0, transform_named y tr (flat_omega f) = Ok l0 & all isSome l0.
  have all_some (g : C -> C) (l : seq C) : all isSome [seq Some (g z) | z <- l] by elim: l.
  case: H => [-> | [-> | [[-> [k [a [E NZ]]]] | [-> NZ]]]] /=; try by eexists; [reflexivity | exact: all_some].
  - rewrite /log_freqs; case S: (smallest _) => [m|]; first by eexists; [reflexivity | exact: all_some].
    case: (smallest_some _ _ S).
      apply/allP => v /mapP[z]; rewrite mem_filter => /andP[Nz _] ->; apply: LG.1.
      by rewrite lt_neqAle eq_sym Nz abs_im_ge0.
    have M : nth 0 (flat_omega f) (k * f_pre f + a) \in [seq z <- flat_omega f | abs_im z != 0].
      by rewrite mem_filter mem_nth ?flat_lt // Z // NZ.
    by case: (filter _ _) M.
  - eexists; first reflexivity.
    apply/allP => o /mapP[z /flatP[k [a [E ->]]] ->]; by rewrite -/(freq f k a) (negbTE (NZ _ _ E)).
rewrite T; have S : size l0 = size (flat_omega f).
  by move: T {A H}; case: (tr) => //=; rewrite /log_freqs; [move=> [<-] | move=> [<-] | case: (smallest _) => // m [<-] | move=> [<-]]; rewrite size_map.
have Fi : all_finite l0 = Ok (pmap id l0) by rewrite /all_finite A.
rewrite /cluster_values /= Fi /= (transformE T Fi) size_map flat_size N0.
set l := [seq _ | z <- _].
have RL : all (fun z => z \is Num.real) l.
  by apply/allP => v /mapP[z M ->]; apply: transform_real.
have K : is_kmeans N l (y_kmeans y N l).1 (y_kmeans y N l).2 by apply: KM; rewrite // size_map flat_size.
rewrite (surjective_pairing (y_kmeans y N l)) relabelE; first by eexists.
- exact: AS (km_real K).
- exact: km_count K.
- exact: km_range K.
Qed.

(** ** cluster_hyperparameter_sweep *)
Lemma scoresP om tr ns sc l : transform_omega y tr om = Ok [seq Some v | v <- l] -> sweep_scores y om tr ns = Ok sc ->
  size sc = size ns /\ forall i, (i < size ns)%N -> exists cent cls,
    cluster_values y (nth 0%N ns i) (transform_omega y tr om) = Ok (cent, cls) /\ nth 0 sc i = y_score y l cls.
Proof.
move=> Tl; elim: ns sc => [|k ns IH] sc /=; first by move=> [<-].
case E: (cluster_values _ _ _) => [[cent cls]|] //=; rewrite Tl /=.
have AF : all_finite [seq Some v | v <- l] = Ok l.
  rewrite /all_finite; have -> : all isSome [seq Some v | v <- l] by elim: (l).
  by congr Ok; elim: (l) => //= z s ->.
rewrite AF /=; case F: (sweep_scores _ _ _ _) => [sc'|] //= [<-]; have [Sz H] := IH _ F; split; first by rewrite /= Sz.
move: E; rewrite Tl /cluster_values /= AF => E.
by move=> [|i] I; [exists cent, cls | have := H i I; rewrite Tl /cluster_values /= AF].
Qed.
(** the answer is one of the numbers tried, its clustering has the best score, and it is the first such number *)
Theorem C45_sweep om rank ns tr N l : transform_omega y tr om = Ok [seq Some v | v <- l] ->
  sweep y om rank (Some ns) tr = Ok N ->
  exists score : nat -> C, (forall k, k \in ns -> exists cent cls,
      cluster_values y k (transform_omega y tr om) = Ok (cent, cls) /\ score k = y_score y l cls) /\
    [/\ N \in ns, forall k, k \in ns -> score k <= score N & forall k, (index k ns < index N ns)%N -> score k != score N].
Proof.
move=> Tl; rewrite /sweep Tl /=; case E: (sweep_scores _ _ _ _) => [sc|] //=; have [Sz H] := scoresP Tl E.
rewrite /argmax_first; case: ifP => // L [<-]; set i := find _ _ in L *.
have Li : (i < size ns)%N by rewrite -Sz.
pose score k := nth 0 sc (index k ns).
have Mx : all (fun b => b <= nth 0 sc i) sc by apply: (nth_find 0 (a := fun a => all (fun b => b <= a) sc)); rewrite has_find.
have Sc k : (k < size ns)%N -> exists j, [/\ (j <= k)%N, index (nth 0%N ns k) ns = j & nth 0 sc j = nth 0 sc k].
  move=> K; exists (index (nth 0%N ns k) ns); have Ix : (index (nth 0%N ns k) ns < size ns)%N by rewrite index_mem mem_nth.
  have Lk : (index (nth 0%N ns k) ns <= k)%N by rewrite leqNgt; apply/negP => /(before_find 0%N) /=; rewrite eqxx.
  split=> //; have [c1 [k1 [E1 ->]]] := H _ Ix; have [c2 [k2 [E2 ->]]] := H _ K.
  by move: E1; rewrite nth_index ?mem_nth // E2 => -[_ ->].
have [j [Lj Ej Vj]] := Sc i Li.
have ji : j = i.
  apply/eqP; rewrite eqn_leq Lj leqNgt; apply/negP => J; have := before_find 0 J; rewrite Vj; by rewrite Mx.
exists score; split.
  move=> k M; have Ik : (index k ns < size ns)%N by rewrite index_mem.
  have [cent [cls [E1 E2]]] := H _ Ik; exists cent, cls; move: E1; rewrite (nth_index 0%N M) Tl => E1; by split.
have SN : score (nth 0%N ns i) = nth 0 sc i by rewrite /score Ej.
split; first exact: mem_nth.
- move=> k M; rewrite SN; apply: (allP Mx); apply: mem_nth; by rewrite Sz index_mem.
- move=> k; rewrite Ej ji => K; rewrite SN; apply/negP => /eqP Es; have := before_find 0 K; by rewrite -/(score k) Es Mx.
Qed.
(** without a range, ranks below four leave nothing to try *)
Theorem C45_sweep_small_refuted om rank tr : (rank < 4)%N -> exists e, sweep y om rank None tr = Err e.
Proof.
move=> L; rewrite /sweep; case: (transform_omega _ _ _) => [l|e]; last by exists e.
by exists ValueError; case: rank L => [|[|[|[|]]]].
Qed.
(** otherwise the numbers tried are those from the larger of 2 and rank // 4 to rank // 2 *)
Theorem C45_sweep_range rank k : (k \in default_range rank) = (maxn (rank %/ 4) 2 <= k <= rank %/ 2)%N.
Proof.
rewrite /default_range mem_iota; case: (leqP (maxn (rank %/ 4) 2) (rank %/ 2 + 1)) => L.
  by rewrite subnKC // addn1 ltnS.
have /eqP -> : (rank %/ 2 + 1 - maxn (rank %/ 4) 2 == 0)%N by rewrite subn_eq0 ltnW.
rewrite addn0; apply/idP/idP => /andP[A B]; first by move: B; rewrite ltnNge A.
by move: L; rewrite ltnNge (leq_trans A) ?(leq_trans B) ?leq_addr.
Qed.
End C45.
Print Assumptions C45_bands.
Print Assumptions C45_renumbered.
Print Assumptions C45_order.
Print Assumptions C45_period_refuted.
Print Assumptions C45_pairs.
Print Assumptions C45_default_refuted.
Print Assumptions C45_method_refuted.
Print Assumptions C45_period_zero.
Print Assumptions C45_count.
Print Assumptions C45_succeeds.
Print Assumptions C45_sweep.
Print Assumptions C45_sweep_small_refuted.
Print Assumptions C45_sweep_range.
