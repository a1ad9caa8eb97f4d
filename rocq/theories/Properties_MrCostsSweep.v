(** * C58: mrCOSTS, the search for the number of global bands *)
From Coq Require Import QArith.
From mathcomp Require Import all_ssreflect all_fingroup all_algebra all_field.
From Verif Require Import Py LinAlg Model_Operator Model_BOP Model_CostsWin Model_Costs Model_MrCosts Spec_Costs Properties_MrCostsCase.
Set Implicit Arguments. Unset Strict Implicit. Unset Printing Implicit Defensive.
Import Order.TTheory GRing.Theory Num.Theory.
Local Open Scope ring_scope.

Section Sweep.
Variables (C : numClosedFieldType) (y : cext C) (n : nat).
Implicit Types (o : mrcosts C n) (ns : seq nat).

(** the transformation of the call, else that of the object *)
Definition method_of o (tr : option trans) : option trans := if tr is Some _ then tr else mr_transform o.

Lemma scoresE o da tr l ns sc (F : nat -> C) : mr_transform_omega y (method_of o tr) (flat_values da) = Ok [seq Some v | v <- l] ->
  (forall k, F k = if cluster_values y k (Ok [seq Some v | v <- l]) is Ok r then y_score y l r.2 else 0) ->
  mr_scores y o da tr ns = Ok sc -> sc = [seq F k | k <- ns] /\ forall k, k \in ns -> exists r, cluster_values y k (Ok [seq Some v | v <- l]) = Ok r.
Proof.
move=> T HF; elim: ns sc => [|k ns IH] sc; cbn [mr_scores]; first by move=> [<-].
rewrite /mr_cluster -/(method_of o tr) T; case E: (cluster_values _ _ _) => [[cent cls]|] //; cbn [bind].
have -> : all_finite [seq Some v | v <- l] = Ok l.
  rewrite /all_finite; have -> : all isSome [seq Some v | v <- l] by elim: (l).
  by congr Ok; elim: (l) => //= z s ->.
cbn [bind]; case G: (mr_scores _ _ _ _ _) => [sc'|] // [<-]; have [-> H] := IH _ G.
split; first by rewrite /= HF E.
move=> j; rewrite inE => /orP[/eqP->|/H//]; by exists (cent, cls).
Qed.

Lemma finiteE (t : result (seq (option C))) k r : cluster_values y k t = Ok r -> exists l, t = Ok [seq Some v | v <- l].
Proof.
rewrite /cluster_values; case: t => [l0|] //=; rewrite /all_finite; case: ifP => // A _; exists (pmap id l0); congr Ok.
by elim: l0 A => //= -[a|] s IH //= /IH {1}->.
Qed.

(** The sweep returns one of the numbers tried, the first one whose clustering of the transformed values has the best score.
    The values are those of all levels together; the number is remembered, earlier results are kept. *)
Theorem C58_sweep o ns tr o' N : global_sweep y o ns tr = (o', Ok N) ->
  exists da l (score : nat -> C),
    [/\ mr_table o = Ok da, mr_transform_omega y (method_of o tr) (flat_values da) = Ok [seq Some v | v <- l],
        forall k, k \in ns -> exists cent cls, cluster_values y k (Ok [seq Some v | v <- l]) = Ok (cent, cls) /\ score k = y_score y l cls
      & [/\ N \in ns, forall k, k \in ns -> score k <= score N & forall k, (index k ns < index N ns)%N -> score k != score N]] /\
    [/\ mr_nglobal o' = Some N, mr_bands o' = mr_bands o, mr_levels o' = mr_levels o & mr_omega o' = Some da].
Proof.
have [->|Nn] := eqVneq ns [::]; first by [].
rewrite {1}/global_sweep (_ : forall A (a b : A), (if ns is [::] then a else b) = b); last by move=> A a b; case: (ns) Nn.
case T: (mr_table o) => [da|] //; case G: (mr_scores _ _ _ _ _) => [sc|] //.
have [l Tl] : exists l, mr_transform_omega y (method_of o tr) (flat_values da) = Ok [seq Some v | v <- l].
  move: G; case: (ns) Nn => // k ks _; cbn [mr_scores]; rewrite /mr_cluster -/(method_of o tr); case E: (cluster_values _ _ _) => [r|] // _; exact: finiteE E.
pose F k := if cluster_values y k (Ok [seq Some v | v <- l]) is Ok r then y_score y l r.2 else 0.
have [Es Ec] := scoresE Tl (fun k => erefl (F k)) G.
rewrite /argmax_first; case: ifP => // L [<- <-]; set i := find _ sc in L *.
have Si : (i < size ns)%N by move: L; rewrite (_ : size sc = size ns) // Es size_map.
set q := fun k => all (fun b => b <= F k) sc.
have Ei : i = find q ns by rewrite /i [X in find _ X = _]Es find_map; apply: eq_find.
have Q : q (nth 0%N ns i) by rewrite Ei; apply: nth_find; rewrite has_find -Ei.
exists da, l, F; split; last by [].
split=> //.
  by move=> k K; have [[cent cls] E] := Ec _ K; exists cent, cls; rewrite /F E.
have Lx : (index (nth 0%N ns i) ns <= i)%N.
  by rewrite leqNgt; apply/negP => /(before_find 0%N) /=; rewrite eqxx.
split; first exact: mem_nth.
- by move=> k K; apply: (allP Q); rewrite Es; apply: map_f.
- move=> k K; have Ki := leq_trans K Lx; apply/negP => /eqP Ek.
  have Km : k \in ns by rewrite -index_mem (ltn_trans Ki).
  have Kf : (index k ns < find q ns)%N by rewrite -Ei.
  by have := before_find 0%N Kf; rewrite nth_index // /q Ek -/(q _) Q.
Qed.
(** a clustering without a number of bands then uses the one found *)
Theorem C58_sweep_used o ns tr o' N tr2 : global_sweep y o ns tr = (o', Ok N) ->
  global_cluster_omega y o' None tr2 = global_cluster_omega y o' (Some N) tr2.
Proof. by move=> /C58_sweep [da [l [sc [_ [E _ _ _]]]]]; rewrite /global_cluster_omega E. Qed.
(** nothing to try is an error, and the object stays as it was *)
Theorem C58_sweep_empty o tr : global_sweep y o [::] tr = (o, Err ValueError).
Proof. by []. Qed.
(** a number for which the clustering succeeds is found if it is the only one tried *)
Lemma one_number o k tr o2 r : global_cluster_omega y o (Some k) tr = (o2, Ok r) -> exists o', global_sweep y o [:: k] tr = (o', Ok k).
Proof.
rewrite /global_cluster_omega /global_sweep; case T: (mr_table o) => [da|] //; cbn [mr_scores].
case E: (mr_cluster _ _ _ _ _) => [[cent cls]|] // _; cbn [bind].
have [l Tl] : exists l, mr_transform_omega y (method_of o tr) (flat_values da) = Ok [seq Some v | v <- l] by exact: finiteE E.
rewrite -/(method_of o tr) Tl; cbn [bind].
have -> : all_finite [seq Some v | v <- l] = Ok l.
  rewrite /all_finite; have -> : all isSome [seq Some v | v <- l] by elim: (l).
  by congr Ok; elim: (l) => //= z s ->.
by cbn [bind]; rewrite /argmax_first /= lexx /=; eexists.
Qed.
End Sweep.

(** After the fit of C58_case there is something to find: two bands. *)
Example C58_sweep_case : exists (o o' : mrcosts algCnumClosedField 2), (exists lev, mr_levels o = Some lev /\ size lev = 2%N) /\
  global_sweep (y1 algCnumClosedField) o [:: 2%N] None = (o', Ok 2%N).
Proof.
have [o1 [o2 [r [lev [G [R [[_ El Sl Ec _] _]]]]]]] := C58_case.
have [o' E] := one_number Ec; exists o1, o'; split=> //; by exists lev.
Qed.
Print Assumptions C58_sweep.
Print Assumptions C58_sweep_used.
Print Assumptions C58_sweep_empty.
