(** * mrCOSTS: the times of the windows, the columns of the table, the reconstruction put together *)
From Coq Require Import QArith.
From mathcomp Require Import all_ssreflect all_fingroup all_algebra.
From Verif Require Import Py LinAlg Model_Operator Model_BOP Model_CostsWin Model_Costs Model_MrCosts Spec_Costs Spec_CostsWin Spec_MrCosts.
From Verif Require Import Proofs_CostsWin Proofs_Costs Proofs_CostsBand Proofs_CostsFit Proofs_CostsLoop Proofs_MrInterp Proofs_MrCosts.
From Verif Require Model_Utils.
Set Implicit Arguments. Unset Strict Implicit. Unset Printing Implicit Defensive.
Import Order.TTheory GRing.Theory Num.Theory.
Local Open Scope ring_scope.
Local Notation "# n" := (BinInt.Z.of_nat n) (at level 5, format "# n").

Section MrF.
Variable C : numClosedFieldType.
Variable np : numpy C.
Variable x : ext C.
Variable y : cext C.

Lemma listed_entry (T w d : nat) (k : nat) : (w <= T)%N -> (k < size (listed T w d))%N ->
  exists2 st, (st + w <= T)%N & nth [::] (listed T w d) k = iota st w.
Proof.
move=> wT K; have: nth [::] (listed T w d) k \in listed T w d by apply: mem_nth.
case/mapP => j _ ->; rewrite seq_iota; exists (Nat.min (j * d) (T - w)) => //.
have /ssrnat.leP H : (Nat.min (j * d) (T - w)%coq_nat <= (T - w)%coq_nat)%coq_nat by apply: PeanoNat.Nat.le_min_r.
by rewrite addnC -(leq_subRL _ wT).
Qed.

(** the stored times of a window are those of the data *)
Lemma fit_times fuel n (c : costs C n) kw sharp T (X : 'M[C]_(n, T)) (t : 'rV[C]_T) (w d : nat) c' kw' :
  (0 < w)%N -> (0 < d)%N -> rounds (y_fl y) #T #w ->
  fit np x y fuel c kw sharp X t #w #d = Some (c', kw', Ok tt) ->
  exists pre (rs : seq (wres C n w)), [/\ c_fit c' = Some (Fitted pre rs), size rs = size (listed T w d) &
    forall k r0, (k < size rs)%N -> wr_time (nth r0 rs k) = cut t w (nth [::] (listed T w d) k)].
Proof.
move=> w0 d0 R F; have [e [g [pre [al [rk [s1 [rs [[Al In Rk Lo ->] Wi]]]]]]]] := fit_inv w0 d0 R F.
rewrite (eq_axiomK e) castmx_id in Lo; have [S H] := loop_stores Lo.
exists pre, rs; split=> // k r0; rewrite S => K.
by have [d' [[d1 [_ [q [r [u [_ [-> _]]]]]]] _]] := H k K r0.
Qed.

(** times that increase *)
Definition rising T (t : 'rV[C]_T) : Prop := (forall j, t 0 j \is Num.real) /\ forall i j : 'I_T, (i < j)%N -> t 0 i < t 0 j.

Lemma tmin_first w (u : 'rV[C]_w) : (forall i j : 'I_w, (i <= j)%N -> u 0 i <= u 0 j) -> tmin u = pad u 0.
Proof.
case: w u => [|w] u H; rewrite /tmin /pad; first by rewrite (_ : enum 'I_0 = [::]) ?insubF //; apply: size0nil; rewrite size_enum_ord.
rewrite insubT; set o := Sub _ _; have M : u 0 o \in [seq u 0 j | j <- enum 'I_w.+1].
  by apply/mapP; exists o; rewrite ?mem_enum.
have A : forall a, a \in [seq u 0 j | j <- enum 'I_w.+1] -> u 0 o <= a.
  by move=> a /mapP[j _ ->]; apply: H.
case E: (smallest _) => [m|] /=.
  have [Mm Am] := smallestP E; apply/le_anti; rewrite A // andbT; exact: Am.
move: E; rewrite /smallest; case F: (filter _ _) => [|a l] //= _.
have: u 0 o \in [seq a <- [seq u 0 j | j <- enum 'I_w.+1] | all (fun b => a <= b) [seq u 0 j | j <- enum 'I_w.+1]].
  by rewrite mem_filter M andbT; apply/allP.
by rewrite F.
Qed.

Lemma cut_rising T (t : 'rV[C]_T) w (st : nat) : rising t -> (st + w <= T)%N ->
  (forall j, cut t w (iota st w) 0 j \is Num.real) /\
  forall i j : 'I_w, (i <= j)%N -> cut t w (iota st w) 0 i <= cut t w (iota st w) 0 j.
Proof.
move=> [Rt It] L; have B (j : 'I_w) : (st + j < T)%N by apply: leq_trans L; rewrite ltn_add2l.
have E (j : 'I_w) : cut t w (iota st w) 0 j = t 0 (Ordinal (B j)).
  by rewrite mxE nth_iota // /cell; case: insubP => [s _ e|]; rewrite ?B //; congr (t 0 _); apply: val_inj.
split=> [j|i j I]; rewrite !E //; move: I; rewrite leq_eqVlt => /orP[/eqP e|I].
  by rewrite (_ : Ordinal (B i) = Ordinal (B j)) //; apply: val_inj; rewrite /= e.
by apply/ltW/It; rewrite /= ltn_add2l.
Qed.

Lemma centre_real n w (r : wres C n w) : (forall j, wr_time r 0 j \is Num.real) -> centre r \is Num.real.
Proof.
move=> H; rewrite /centre rpredM ?rpredV ?realn //; apply: rpred_sum => j _; exact: H.
Qed.

(** ** The columns of the table *)
Lemma handed_le ranks a r : handed_classes ranks a r = r -> (r <= a)%N.
Proof. by rewrite /handed_classes; case: ifP => _ => [<-|-> //]; exact: geq_minl. Qed.

Lemma union_full (l : seq (level_ds C)) : (foldr maxn 0%N [seq ds_rank d | d <- l] <= size (union_cols l))%N ->
  union_cols l = iota 0 (foldr maxn 0%N [seq ds_rank d | d <- l]).
Proof.
rewrite /union_cols; set R := foldr _ _ _; set p := fun c => _; move=> H.
apply: all_filterP; rewrite all_count; rewrite size_filter in H.
by rewrite eqn_leq count_size size_iota.
Qed.
Lemma max_attained (l : seq nat) : (0 < size l)%N -> exists2 k, (k < size l)%N & foldr maxn 0%N l = nth 0%N l k.
Proof.
elim: l => // a l IH _; case: l IH => [|b l] IH; first by exists 0%N; rewrite //= maxn0.
have [//|k K E] := IH; rewrite [foldr _ _ _]/(maxn a (foldr maxn 0%N (b :: l))) E.
by case: (leqP (nth 0%N (b :: l) k) a) => L; [exists 0%N => //; apply/maxn_idPl | exists k.+1 => //; apply/maxn_idPr/ltnW].
Qed.
Lemma max_ge (l : seq nat) k : (nth 0%N l k <= foldr maxn 0%N l)%N.
Proof. by elim: l k => [|a l IH] [|k] //=; rewrite ?leq_maxl // leq_max IH orbT. Qed.

(** ** Lists of results *)
Lemma all_okP A B (f : A -> result B) l l' a0 b0 : all_ok f l = Ok l' ->
  size l' = size l /\ forall k, (k < size l)%N -> f (nth a0 l k) = Ok (nth b0 l' k).
Proof.
elim: l l' => [|a l IH] l' /=; first by move=> [<-].
case E: (f a) => [b|] //=; case F: (all_ok f l) => [t|] //= [<-]; have [S H] := IH _ F.
by split=> [|[|k] K] /=; rewrite ?S // H.
Qed.
Lemma all_bandsP n ranks ng cols (lev : seq (costs C n)) cl gs c0 : all_bands x ranks ng cols lev cl = Ok gs ->
  size gs = size lev /\ forall k g0, (k < size lev)%N ->
   level_bands x ranks ng cols (nth c0 lev k) (nth (fun _ _ => None) cl k) = Ok (nth g0 gs k).
Proof.
elim: lev cl gs => [|c lev IH] [|a cl] gs //=; first by move=> [<-].
  by move=> [<-].
case E: (level_bands _ _ _ _ _ _) => [g|] //=; case F: (all_bands _ _ _ _ _ _) => [t|] //= [<-]; have [S H] := IH _ _ F.
by split=> [|[|k] g0 K] /=; rewrite ?S //; apply: H.
Qed.
End MrF.
