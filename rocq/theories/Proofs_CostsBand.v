From Coq Require Import QArith.
From mathcomp Require Import all_ssreflect all_fingroup all_algebra.
From Verif Require Import Py LinAlg Model_Operator Model_BOP Model_CostsWin Model_Costs Spec_Costs Proofs_Costs.
From Verif Require Model_Utils.
Set Implicit Arguments. Unset Strict Implicit. Unset Printing Implicit Defensive.
Import Order.TTheory GRing.Theory Num.Theory.
Local Open Scope ring_scope.

Section Band.
Variable C : numClosedFieldType.
Variable y : cext C.

(** ** the lookup table *)
Lemma set_all_nth (idx v l0 : seq nat) a : uniq idx -> size v = size idx ->
  nth 0%N (foldl (fun l p => set_nth 0%N l p.1 p.2) l0 (zip idx v)) a =
  if a \in idx then nth 0%N v (index a idx) else nth 0%N l0 a.
Proof.
elim: idx v l0 => [|i idx IH] [|b v] l0 //= /andP[N U] [S]; rewrite IH // nth_set_nth /= inE (eq_sym i a).
case: (a =P i) => [-> | _]; first by rewrite (negbTE N).
by case: ifP.
Qed.
Lemma set_all_size (idx v l0 : seq nat) : all (fun i => i < size l0)%N idx ->
  size (foldl (fun l p => set_nth 0%N l p.1 p.2) l0 (zip idx v)) = size l0.
Proof.
elim: idx v l0 => [|i idx IH] [|b v] l0 //= /andP[L A].
have S : size (set_nth 0%N l0 i b) = size l0 by rewrite size_set_nth; move/maxn_idPr: L.
by rewrite IH S.
Qed.
Lemma lut_size idx v : all (fun i => i < size idx)%N idx -> size (lut_of idx v) = size idx.
Proof. by move=> A; rewrite /lut_of set_all_size size_nseq. Qed.

Section Relabel.
Variables (n : nat) (labels : seq nat) (cent : seq C).
Hypotheses (AS : is_argsort cent (y_argsort y cent)) (Sc : size cent = n) (R : all (fun j => j < n)%N labels).
Let idx := y_argsort y cent.

Lemma idx_mem j : (j \in idx) = (j < n)%N.
Proof. by rewrite (perm_mem AS.1) mem_iota /= add0n Sc. Qed.
Lemma idx_size : size idx = n. Proof. by rewrite (perm_size AS.1) size_iota. Qed.
Lemma idx_uniq : uniq idx. Proof. by rewrite (perm_uniq AS.1) iota_uniq. Qed.

Lemma relabelE : relabel y n labels cent = Ok ([seq nth 0 cent i | i <- idx], [seq index j idx | j <- labels]).
Proof.
rewrite /relabel -/idx idx_size eqxx /= lut_size ?size_iota ?idx_size //; last first.
  by apply/allP => j; rewrite idx_mem.
rewrite R; do 2 f_equal; apply/eq_in_map => j /(allP R) J.
by rewrite /lut_of set_all_nth ?size_iota ?idx_size ?idx_uniq // idx_mem J nth_iota -?idx_size ?index_mem ?idx_mem.
Qed.

Lemma relabel_cent j : (j < n)%N -> nth 0 [seq nth 0 cent i | i <- idx] (index j idx) = nth 0 cent j.
Proof. by move=> J; rewrite (nth_map 0%N) ?index_mem ?idx_mem // nth_index ?idx_mem. Qed.
Lemma relabel_sorted : sorted <=%O [seq nth 0 cent i | i <- idx].
Proof. by rewrite sorted_map; exact: AS.2. Qed.
Lemma relabel_lt j : (j < n)%N -> (index j idx < n)%N.
Proof. by move=> J; rewrite -[X in (_ < X)%N]idx_size index_mem idx_mem. Qed.
Lemma relabel_inj i j : (i < n)%N -> (j < n)%N -> index i idx = index j idx -> i = j.
Proof. by move=> I J E; rewrite -(nth_index 0%N (x := i) (s := idx)) ?idx_mem // E nth_index ?idx_mem. Qed.
Lemma relabel_lt_cent i j : (i < n)%N -> (j < n)%N -> uniq cent -> (index i idx < index j idx)%N -> nth 0 cent i < nth 0 cent j.
Proof.
move=> I J U L; rewrite lt_neqAle nth_uniq ?Sc //; apply/andP; split.
  by apply/eqP => E; rewrite E ltnn in L.
rewrite -relabel_cent // -(relabel_cent J).
apply: (sorted_leq_nth le_trans lexx 0 relabel_sorted) => //; rewrite ?inE ?size_map ?index_mem ?idx_mem //; exact: ltnW.
Qed.
End Relabel.

(** ** nearest centroids *)
Lemma near_order (a b c1 c2 : C) : a \is Num.real -> b \is Num.real -> c1 \is Num.real -> c2 \is Num.real ->
  c1 < c2 -> `|a - c1| <= `|a - c2| -> `|b - c2| <= `|b - c1| -> a <= b.
Proof.
move=> Ra Rb R1 R2 L N1 N2.
have sq (u v : C) : u \is Num.real -> v \is Num.real -> `|u| <= `|v| -> u ^+ 2 <= v ^+ 2.
  by move=> Ru Rv H; rewrite -(real_normK Ru) -(real_normK Rv) ler_expn2r // nnegrE normr_ge0.
have B (u v : C) : u \is Num.real -> v \is Num.real -> u - v \is Num.real by exact: rpredB.
have H1 := sq _ _ (B _ _ Ra R1) (B _ _ Ra R2) N1.
have H2 := sq _ _ (B _ _ Rb R2) (B _ _ Rb R1) N2.
have D0 : 0 < 2%:R * (c2 - c1) by rewrite mulr_gt0 ?ltr0n // subr_gt0.
rewrite -(ler_pmul2r D0) -subr_ge0.
have E (u v w : C) : (u - v) ^+ 2 - (u - w) ^+ 2 = (v - w) * ((v + w) - (u + u)).
  rewrite subr_sqr; have -> : u - v - (u - w) = - (v - w) by rewrite !opprB addrC addrA subrK.
  have -> : u - v + (u - w) = - ((v + w) - (u + u)) by rewrite addrACA -opprD opprB.
  by rewrite mulrNN.
have -> : b * (2%:R * (c2 - c1)) - a * (2%:R * (c2 - c1)) =
  ((a - c2) ^+ 2 - (a - c1) ^+ 2) + ((b - c1) ^+ 2 - (b - c2) ^+ 2).
  rewrite !E -[c1 - c2]opprB mulNr -mulrBr -mulrBl mulrA mulr_natr mulrC [c1 + c2]addrC; congr (_ * _).
  by rewrite opprB [RHS]addrC addrA subrK -!mulr2n mulrnBl.
by rewrite addr_ge0 // subr_ge0.
Qed.

(** ** transformations *)
Lemma abs_im_ge0 (z : C) : 0 <= abs_im z. Proof. exact: normr_ge0. Qed.
Lemma abs_im_real (z : C) : abs_im z \is Num.real. Proof. exact: ger0_real (abs_im_ge0 z). Qed.

Lemma smallestP (l : seq C) m : smallest l = Some m -> m \in l /\ forall a, a \in l -> m <= a.
Proof.
rewrite /smallest; case E: (filter _ l) => [|a t] //= [<-].
have: a \in [seq a <- l | all (fun b => a <= b) l] by rewrite E inE eqxx.
by rewrite mem_filter => /andP[/allP A M].
Qed.

Definition transform_value (tr : trans) (om : seq C) (z : C) : C :=
  match tr with
  | Squares => 'Im z ^+ 2
  | Log10 => if abs_im z == 0 then odflt 0 (smallest [seq y_log10 y (abs_im z) | z <- om & abs_im z != 0]) else y_log10 y (abs_im z)
  | Period => (abs_im z)^-1
  | _ => abs_im z
  end.
Lemma transformE tr om l0 l : transform_named y tr om = Ok l0 -> all_finite l0 = Ok l ->
  l = [seq transform_value tr om z | z <- om].
Proof.
have fin (F : C -> C) : all_finite [seq Some (F z) | z <- om] = Ok [seq F z | z <- om].
  rewrite /all_finite; have -> : all isSome [seq Some (F z) | z <- om] by elim: (om).
  by congr Ok; elim: (om) => //= z t ->.
case: tr => //=.
- by move=> [<-]; rewrite fin => -[<-].
- by move=> [<-]; rewrite fin => -[<-].
- by rewrite /log_freqs; case E: (smallest _) => [m|] // [<-]; rewrite fin => -[<-].
- move=> [<-]; rewrite /all_finite; case: ifP => // A [<-].
  elim: (om) A => //= z t IH /andP[]; case: ifP => //= _ _ /IH ->; by [].
Qed.

Lemma transform_real tr om z : is_log (y_log10 y) -> z \in om -> transform_value tr om z \is Num.real.
Proof.
move=> [Lr _] M; have I : 'Im z \is Num.real by exact: Creal_Im.
case: tr => //=; rewrite ?abs_im_real ?rpredX ?rpredV ?abs_im_real //.
case: ifP => [Z|/negbT NZ]; last by apply: Lr; rewrite lt_neqAle eq_sym NZ abs_im_ge0.
case E: (smallest _) => [m|] /=; last exact: real0.
have [H _] := smallestP E; move/mapP: H => [z' ]; rewrite mem_filter => /andP[NZ _] ->.
by apply: Lr; rewrite lt_neqAle eq_sym NZ abs_im_ge0.
Qed.

(** ** flattened arrays *)
Lemma nth_blocks A (x0 : A) (F : nat -> nat -> A) p m s k c : (k < m)%N -> (c < p)%N ->
  nth x0 (flatten [seq [seq F a b | b <- iota 0 p] | a <- iota s m]) (k * p + c) = F (s + k)%N c.
Proof.
move=> K P; elim: m s k K => // m IH s [|k] K.
  by rewrite /= mul0n add0n nth_cat size_map size_iota P (nth_map 0%N) ?size_iota // nth_iota // addn0.
rewrite /= nth_cat size_map size_iota mulSn -addnA ltnNge leq_addr /= addnC addnK IH //.
by rewrite addSnnS.
Qed.
Lemma size_blocks A (F : nat -> nat -> A) p m s : size (flatten [seq [seq F a b | b <- iota 0 p] | a <- iota s m]) = (m * p)%N.
Proof. by elim: m s => // m IH s; rewrite /= size_cat size_map size_iota IH mulSn. Qed.
Lemma block_lt k c m p : (k < m)%N -> (c < p)%N -> (k * p + c < m * p)%N.
Proof.
move=> K P; apply: (@leq_trans (k.+1 * p)); first by rewrite mulSnr ltn_add2l.
by rewrite leq_mul2r K orbT.
Qed.

(** ** clustering *)
Hypotheses (KM : kmeans_ok (y_kmeans y)) (AS : argsort_ok (y_argsort y)) (LG : is_log (y_log10 y)).

Section Named.
Variables (n : nat) (tr : trans) (om : seq C) (cent' : seq C) (cls' : seq nat).
Hypothesis E : cluster_values y n (transform_named y tr om) = Ok (cent', cls').
Let l := [seq transform_value tr om z | z <- om].
Let labels := (y_kmeans y n l).1.
Let cent := (y_kmeans y n l).2.
Let idx := y_argsort y cent.

Lemma cluster_namedP : [/\ (0 < n <= size om)%N, is_kmeans n l labels cent,
  cent' = [seq nth 0 cent i | i <- idx] & cls' = [seq index j idx | j <- labels]].
Proof.
move: E; rewrite /cluster_values; case T: (transform_named y tr om) => [l0|] //=.
case F: (all_finite l0) => [l1|] //=; rewrite (transformE T F) -/l; case: ifP => // N.
have RL : all (fun z => z \is Num.real) l.
  by apply/allP => v /mapP[z M ->]; apply: transform_real.
have K := KM N RL; rewrite -/labels -/cent in K.
rewrite (surjective_pairing (y_kmeans y n l)) -/labels -/cent relabelE; first last.
- exact: km_range K.
- exact: km_count K.
- exact: AS (km_real K).
by move=> [<- <-]; move: N; rewrite size_map.
Qed.

Let zN : (0 < n <= size om)%N. Proof. by case: cluster_namedP. Qed.
Let K : is_kmeans n l labels cent. Proof. by case: cluster_namedP. Qed.
Let A : is_argsort cent idx. Proof. exact: AS (km_real K). Qed.
Let Lab i : (i < size om)%N -> (nth 0%N labels i < n)%N.
Proof. by move=> I; apply: (allP (km_range K)); rewrite mem_nth // (km_size K) size_map. Qed.
Let Cls i : (i < size om)%N -> nth 0%N cls' i = index (nth 0%N labels i) idx.
Proof. by move=> I; case: cluster_namedP => _ _ _ ->; rewrite (nth_map 0%N) // (km_size K) size_map. Qed.

Lemma cluster_size : size cent' = n /\ size cls' = size om.
Proof. by case: cluster_namedP => _ _ -> ->; rewrite !size_map (perm_size A.1) size_iota (km_count K) (km_size K) size_map. Qed.
Lemma cluster_sorted : sorted <=%O cent'.
Proof. by case: cluster_namedP => _ _ -> _; apply: relabel_sorted. Qed.
Lemma cluster_perm : perm_eq cent' cent.
Proof.
case: cluster_namedP => _ _ -> _; apply: perm_trans (perm_map _ A.1) _.
by rewrite -[X in perm_eq _ X](mkseq_nth 0 cent) perm_refl.
Qed.
Lemma cluster_range i : (i < size om)%N -> (nth 0%N cls' i < n)%N.
Proof. by move=> I; rewrite Cls // relabel_lt ?(km_count K) ?Lab. Qed.
Lemma cluster_keeps i : (i < size om)%N -> nth 0 cent' (nth 0%N cls' i) = nth 0 cent (nth 0%N labels i).
Proof. by move=> I; rewrite Cls //; case: cluster_namedP => _ _ -> _; rewrite (relabel_cent A (km_count K)) ?Lab. Qed.
Lemma cluster_same i j : (i < size om)%N -> (j < size om)%N ->
  (nth 0%N cls' i == nth 0%N cls' j) = (nth 0%N labels i == nth 0%N labels j).
Proof.
move=> I J; rewrite !Cls //; apply/eqP/eqP => [|-> //].
exact: (relabel_inj A (km_count K) (Lab I) (Lab J)).
Qed.

(** bands of lower index hold smaller values *)
Lemma cluster_order i j : uniq cent -> (i < size om)%N -> (j < size om)%N -> (nth 0%N cls' i < nth 0%N cls' j)%N ->
  transform_value tr om (nth 0 om i) <= transform_value tr om (nth 0 om j) /\
  transform_value tr om (nth 0 om i) != transform_value tr om (nth 0 om j).
Proof.
move=> U I J L; have Li := Lab I; have Lj := Lab J.
have Cl : nth 0 cent (nth 0%N labels i) < nth 0 cent (nth 0%N labels j).
  by move: L; rewrite !Cls //; apply: (relabel_lt_cent A (km_count K)).
have V k : (k < size om)%N -> nth 0 l k = transform_value tr om (nth 0 om k) by move=> Hk; rewrite (nth_map 0).
have Rv k : (k < size om)%N -> transform_value tr om (nth 0 om k) \is Num.real.
  by move=> Hk; apply: transform_real => //; apply: mem_nth.
have Rc k : (k < n)%N -> nth 0 cent k \is Num.real.
  by move=> Hk; apply: (allP (km_real K)); rewrite mem_nth ?(km_count K).
have Sl : size l = size om by rewrite size_map.
split.
  apply: (near_order (Rv _ I) (Rv _ J) (Rc _ Li) (Rc _ Lj) Cl); rewrite -V //; apply: (km_near K); by rewrite ?Sl.
apply/negP => /eqP H; move: Cl; rewrite (km_same K _ _ (i := i) (j := j)) ?ltxx ?Sl //.
by rewrite !V.
Qed.

Lemma cluster_freq i j : uniq cent -> (i < size om)%N -> (j < size om)%N -> (nth 0%N cls' i < nth 0%N cls' j)%N ->
  match tr with
  | Period => abs_im (nth 0 om j) < abs_im (nth 0 om i)
  | _ => abs_im (nth 0 om i) < abs_im (nth 0 om j)
  end.
Proof.
move=> U I J L; have [H N] := cluster_order U I J L.
have {}H : transform_value tr om (nth 0 om i) < transform_value tr om (nth 0 om j) by rewrite lt_neqAle N H.
move: H (mem_nth 0 I) (mem_nth 0 J); set a := nth 0 om i; set b := nth 0 om j => {N} H Ma Mb.
have pos (z : C) : abs_im z != 0 -> 0 < abs_im z by move=> Z; rewrite lt_neqAle eq_sym Z abs_im_ge0.
have T : tr <> OtherTrans by move: E; case: (tr).
have LogOk : tr = Log10 -> smallest [seq y_log10 y (abs_im z) | z <- om & abs_im z != 0] <> None.
  by move=> Et; move: E; rewrite Et /= /log_freqs; case: (smallest _).
have PerOk : tr = Period -> forall z, z \in om -> abs_im z != 0.
  move=> Et z M; move: E; rewrite Et /cluster_values /= /all_finite; case: ifP => // /allP F _; apply/negP => Z.
  by have /F := map_f (fun z : C => if abs_im z == 0 then None else Some (abs_im z)^-1) M; rewrite /= Z.
move: H T LogOk PerOk; case: (tr) => //= H _ LogOk PerOk; do [move/(_ erefl) in LogOk| clear LogOk]; do [move/(_ erefl) in PerOk | clear PerOk].
- have sq (z : C) : 'Im z ^+ 2 = abs_im z ^+ 2 by rewrite /abs_im real_normK // Creal_Im.
  rewrite real_ltNge ?abs_im_real //; apply/negP => G; move: H; by rewrite !sq le_gtF // ler_expn2r ?nnegrE ?abs_im_ge0.
- move: H; case: ifP => Za; case: ifP => Zb; rewrite ?ltxx //.
  + by move=> _; rewrite (eqP Za) pos ?Zb.
  + case S: (smallest _) => [m|] /=.
      have [_ /(_ (y_log10 y (abs_im a))) X] := smallestP S; rewrite le_gtF ?X //.
      by apply/mapP; exists a; rewrite ?mem_filter ?Za.
    by move: LogOk; rewrite S.
  + move=> {}H; rewrite real_ltNge ?abs_im_real //; apply/negP; rewrite le_eqVlt => /orP[/eqP Eq | Lt].
      by move: H; rewrite Eq ltxx.
    by move: H; rewrite le_gtF // ltW // LG.2 ?pos ?Zb.
- have /= Za := PerOk _ Ma; have /= Zb := PerOk _ Mb.
  by move: H; rewrite ltr_pinv ?inE ?unitfE ?pos ?Za ?Zb.
Qed.
End Named.
End Band.
