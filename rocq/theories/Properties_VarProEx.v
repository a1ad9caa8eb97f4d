(** * VarProDMD: concrete runs (C49) *)
From Coq Require Import QArith.
From mathcomp Require Import all_ssreflect all_fingroup all_algebra.
From Verif Require Import Py LinAlg Ideal Model_Operator Spec_Operator Proofs_CDMD Proofs_EckartYoung Proofs_Subspace Proofs_LandoDeriv Proofs_Limit Model_VarPro Proofs_VarPro Proofs_VarProJac Spec_VarPro Proofs_VarProFit Properties_VarProFit Properties_VarProObj.
From Verif Require Properties_BOPFit.
From Verif Require Model_Utils.
Set Implicit Arguments. Unset Strict Implicit. Unset Printing Implicit Defensive.
Import Order.TTheory GRing.Theory Num.Theory.
Local Open Scope ring_scope.

Section Ex.
Variable C : numClosedFieldType.
Let np := ideal C.

(** a sorting permutation *)
Definition arg_sort l (v : 'rV[C]_l) : 'S_l :=
  odflt 1%g [pick p : 'S_l | [forall i : 'I_l, forall j : 'I_l, (i <= j)%N ==> (v 0 (p i) <= v 0 (p j))]].
Lemma arg_sort_ok : sorts arg_sort.
Proof.
move=> l v i j R ij; rewrite /arg_sort; case: pickP => [p /forallP /(_ i) /forallP /(_ j) /implyP|N]; first exact.
set T := [tuple v 0 k | k < l]; set le := (fun a b : C => a <= b).
have sT : size (sort le T) == l by rewrite size_sort size_tuple.
have /tuple_permP [p Ep] : perm_eq (Tuple sT) T by rewrite /= perm_sort.
have /negP [] := negbT (N p); apply/forallP => a; apply/forallP => b; apply/implyP => ab.
have So : sorted le (sort le T).
  apply: (@sort_sorted_in _ (fun z => z \is Num.real)) => [u w Ru Rw|]; first exact: real_leVge.
  by apply/allP => z /mapP [k _ ->]; exact: R.
have E k : v 0 (p k) = nth 0 (sort le T) k.
  rewrite -[RHS]/(nth 0 (tval (Tuple sT)) k) -tnth_nth.
  have := congr1 (fun s : l.-tuple C => tnth s k) (val_inj (Ep : val (Tuple sT) = val [tuple tnth T (p i) | i < l])).
  by rewrite /= => ->; rewrite !tnth_mktuple.
rewrite !E; apply: (sorted_leq_nth _ _ 0 So) => //; rewrite ?inE ?size_sort ?size_tuple //; first by move=> y z w; exact: le_trans.
by move=> y; exact: lexx.
Qed.

(** an optimiser that evaluates the residual at [u] and answers [w], whatever it is given; the exponential is 1 + z *)
Definition runner (u w : nat -> C) : vext C :=
  VExt (fun z => 1 + z) (fun _ b _ => enum 'I_b) (fun m _ => m) arg_sort (fun _ _ _ _ _ => Ok ([:: pack (\row_j u j)], pack (\row_j w j))).
Lemma runner_last w : answers_last (runner w w).
Proof. by move=> q l f J a pts ans [<- <-]. Qed.
Lemma case_svd m n (M : 'M[C]_(m, n)) : svd_ok np M.
Proof. by have [Sv _] := ideal_contracts C; exact: Sv. Qed.
Lemma rank_is n m (M : 'M[C]_(n, m)) z : (0 < z)%N -> sv_r (compute_svd np M (Model_Utils.RInt (BinInt.Z.of_nat z))) = minn z (minn n m).
Proof.
case: z => [|z] // _; have H k (s : 'rV[C]_k) : np_rank np s n m (Model_Utils.RInt (BinInt.Z.of_nat z.+1)) = minn z.+1 k :> nat.
  by rewrite /np /= /ideal_rank /= Pnat.SuccNat2Pos.id_succ inordK // ltnS geq_minr.
by rewrite compute_svdE; exact: H.
Qed.

Lemma run u w n m (X : 'M[C]_(n, m.+1)) t z : (0 < z)%N -> (0 < n)%N ->
  exists r, [/\ compute_any np (runner u w) X t (Model_Utils.RInt (BinInt.Z.of_nat z)) false 0 = Ok r,
    vr_l r = minn (minn z (minn n m.+1)) (minn n m), forall j, vr_eigs r 0 j = w j, vr_sel r = enum 'I_m.+1 &
    exists2 B : 'M[C]_(vr_l r, n), scale_cols (vr_modes r) (vr_b r) = B^T &
      is_lstsq (exponentials (fun z => 1 + z) (at_samples t (enum 'I_m.+1)) (\row_(j < vr_l r) u j)) (at_samples X (enum 'I_m.+1))^T B].
Proof.
move=> z0 n0; rewrite /compute_any /optimise /= /indices /=; eexists; split=> //.
- by rewrite /= rank_is // rank_is // leq_min z0 leq_min n0.
- by move=> j; rewrite /= packK mxE.
rewrite /= packK -picked_rowsE -picked_timeE; eexists; first by rewrite unscale mul1mx.
have SV := case_svd; move: np SV => nq SV.
exact: (@eval_lstsq C nq (runner u w) _ _ _ (picked_time t (enum 'I_m.+1)) (picked_rows X (enum 'I_m.+1)) (\row_j u j) (SV _ _ _)).
Qed.

(** ** One feature at times 0 and 1: the exponentials of the eigenvalue 1 are 1 and 2 *)
Let t2 : 'rV[C]_2 := \row_i (nat_of_ord i)%:R.
Let X2 (c : C) : 'M[C]_(1, 2) := \row_i (c * (nat_of_ord i).+1%:R).
Let d1 := varpro_init C 1 (Model_Utils.RInt (BinInt.Z.of_nat 1)) true SgFalse 0.
Lemma X2E c l (w : 'rV[C]_l) : l = 1%N -> (forall j, w 0 j = 1) -> X2 c = exp_sum (fun z => 1 + z) (const_mx c) w t2.
Proof.
by move=> e; move: w; rewrite e => w H; apply/matrixP => i j; rewrite !mxE big_ord1 !mxE H ?mulr1 ?mul1r mulrS.
Qed.
Lemma exp2_full l (w : 'rV[C]_l) : l = 1%N -> row_full (exponentials (fun z => 1 + z) t2 w).
Proof.
move=> e; move: w; rewrite e => w; apply/row_fullP; exists (delta_mx 0 0); apply/matrixP => i j.
by rewrite mxE !ord1 (bigD1 ord0) //= big1 ?addr0 => [|b /negPf N]; rewrite !mxE ?N ?mul0r // ?mul1r ?mul0r ?addr0.
Qed.

Lemma run2 u w (d : varpro C 1) c : vd_rank d = Model_Utils.RInt (BinInt.Z.of_nat 1) -> vd_exact d -> vd_sort d = SgFalse -> vd_comp d = Qmake 0 1 ->
  exists d' (r : vres C 1 2) (p : 'S_(vr_l r)), [/\ fit np (runner u w) d (X2 c) t2 = (d', Ok tt),
    d' = VarPro (vd_rank d) (vd_exact d) (lazy_sort (vd_sort d)) (vd_comp d) (Some (VOp (col_perm p (vr_modes r)) (col_perm p (vr_eigs r))))
      (Some (VFit (col_perm p (vr_b r)) (vr_fun2 r) (vr_jac0 r) (vr_sel r) t2)) (vd_px d),
    vr_l r = 1%N, forall j, vr_eigs r 0 j = w j & vr_sel r = enum 'I_2 /\ exists2 B : 'M[C]_(vr_l r, 1), scale_cols (vr_modes r) (vr_b r) = B^T &
      is_lstsq (exponentials (fun z => 1 + z) (at_samples t2 (enum 'I_2)) (\row_(j < vr_l r) u j)) (at_samples (X2 c) (enum 'I_2))^T B].
Proof.
move=> Er Ex Es Ec; have [r [HA Hl He Hs HB]] := @run u w 1 1 (X2 c) t2 1 isT isT.
have [d' HF] : exists d', fit np (runner u w) d (X2 c) t2 = (d', Ok tt) by rewrite /fit Er Ex Es Ec -[~~ true]/false HA; eexists.
have [r' [key [p [HA' _ _ Ed]]]] := fitP HF; have Er' : r' = r by move: HA'; rewrite Er Ex Ec -[~~ true]/false HA => -[].
by subst r'; exists d', r, p.
Qed.

(** the answer 1 fits the data exactly, but the modes belong to the eigenvalue 0 evaluated last: the forecast misses the data *)
Theorem C49_schedule_refuted : let x := runner (fun=> 0) (fun=> 1) in exists d' o F (M : 'M[C]_(1, vo_l o)),
  [/\ fit np x d1 (X2 1) t2 = (d', Ok tt), vd_op d' = Some o, forecast x d' t2 = Ok F, X2 1 = exp_sum (v_exp x) M (vo_eigs o) t2 & F 0 0 = 3%:R / 2%:R].
Proof.
move=> x; have [d' [r [p [HF Ed Hl He [Hs [B EB HB]]]]]] := @run2 (fun=> 0) (fun=> 1) d1 1 erefl isT erefl erefl.
exists d', (VOp (col_perm p (vr_modes r)) (col_perm p (vr_eigs r))), (exp_sum (v_exp x) (scale_cols (vr_modes r) (vr_b r)) (vr_eigs r) t2), (const_mx 1).
split=> //; [by rewrite Ed|exact: (forecastP x Ed)|by apply: X2E => //= j; rewrite mxE He|].
rewrite EB; move: (vr_eigs r) B HB {He EB p Ed}; rewrite Hl => w B HB; have := congr1 (fun M : 'M[C]_(1, 1) => M 0 0) HB.
rewrite -mulmxA !mxE; under eq_bigr => i _ do rewrite !mxE big_ord1 !mxE mulr0 addr0 conjC1 !mul1r.
under [RHS]eq_bigr => i _ do rewrite !mxE mulr0 addr0 conjC1 !mul1r.
rewrite (sum_all (fun j : 'I_2 => (nat_of_ord j).+1%:R)) sumr_const card_ord size_enum_ord !big_ord_recr big_ord0 /= add0r => E.
rewrite big_ord0 add0r !mxE /= (ord1 ord_max) ?mul0r ?mulr0 addr0 mulr1; apply: (canRL (mulfK _)); first by rewrite pnatr_eq0.
by rewrite mulr_natr E -natrD.
Qed.

(** an optimiser that answers the last point: the forecast continues the data to all times *)
Lemma recover (d : varpro C 1) c : vd_rank d = Model_Utils.RInt (BinInt.Z.of_nat 1) -> vd_exact d -> vd_sort d = SgFalse -> vd_comp d = Qmake 0 1 ->
  let x := runner (fun=> 1) (fun=> 1) in exists d', fit np x d (X2 c) t2 = (d', Ok tt) /\
  forall k (u : 'rV[C]_k), forecast x d' u = Ok (\matrix_(i, j) (c * (1 + u 0 j))).
Proof.
move=> Er Ex Es Ec x; have [d' [r [p [HF Ed Hl He [Hs _]]]]] := @run2 (fun=> 1) (fun=> 1) d c Er Ex Es Ec; exists d'; split=> // k u.
pose o := VOp (col_perm p (vr_modes r)) (col_perm p (vr_eigs r)).
have Eo : vd_op d' = Some o by rewrite Ed.
have Esel : selected_samples d' = Ok (Some [seq nat_of_ord i | i <- enum 'I_2]) by rewrite Ed /selected_samples /= Hs.
have L : vo_l o = 1%N by [].
have E1 j : vo_eigs o 0 j = 1 by rewrite mxE He.
have RF : row_full (exponentials (v_exp x) (at_samples t2 (enum 'I_2)) (vo_eigs o)) by apply: full_all; exact: exp2_full.
have R := @C49_recovery C np x case_svd 1 d d' 1 (X2 c) t2 HF (@runner_last _) o (enum 'I_2) (const_mx c) Eo Esel RF (or_introl Ex) (X2E c L E1) k u.
rewrite R; congr Ok; move: (vo_eigs o) L E1; move: (vo_l o) => l w e; move: w; rewrite e => w H.
by apply/matrixP => i j; rewrite !mxE big_ord1 !mxE H ?mulr1 ?mul1r.
Qed.
Example C49_recovery_case c : let x := runner (fun=> 1) (fun=> 1) in exists d', fit np x d1 (X2 c) t2 = (d', Ok tt) /\
  forall k (u : 'rV[C]_k), forecast x d' u = Ok (\matrix_(i, j) (c * (1 + u 0 j))).
Proof. exact: recover. Qed.

(** a second fit, of doubled data, after the modes were read: the forecast is the new data and the reconstruction the old *)
Theorem C49_refit_refuted : let x := runner (fun=> 1) (fun=> 1) in exists d d' d2 p,
  [/\ fit np x d1 (X2 1) t2 = (d, Ok tt), shown d = (d', Ok (Some p)), fit np x d' (X2 2%:R) t2 = (d2, Ok tt),
      forecast x d2 t2 = Ok (X2 2%:R) & reconstructed x d2 = (d2, Ok (existT _ 2%N (X2 1)))].
Proof.
move=> x; have [d [HF Hf]] := @recover d1 1 erefl isT erefl erefl.
have [p [d' [F [Hs _ Hf1 _ HR]]]] := C49_reconstruction HF erefl.
have [r [key [q [_ _ _ Ed]]]] := fitP HF; have Ed' : [/\ vd_rank d' = Model_Utils.RInt (BinInt.Z.of_nat 1), vd_exact d', vd_sort d' = SgFalse & vd_comp d' = Qmake 0 1].
  by move: Hs; rewrite /shown Ed /=; case: eqP => // e [<- _].
case: Ed' => A B D E; have [d2 [HF2 Hf2]] := @recover d' 2%:R A B D E.
have [S1 R1] := C49_stale Hs HF2; exists d, d', d2, p; split=> //.
  by rewrite Hf2; congr Ok; apply/matrixP => i j; rewrite !mxE (mulrS 1 j).
rewrite R1 -masked_sumE; congr (_, Ok (existT _ _ _)); move: HR; rewrite /reconstructed Hs.
have -> : vd_fit d = Some (VFit (col_perm q (vr_b r)) (vr_fun2 r) (vr_jac0 r) (vr_sel r) t2) by rewrite Ed.
move=> -[EF]; have {}EF := Eqdep_dec.inj_pair2_eq_dec _ PeanoNat.Nat.eq_dec _ _ _ _ EF.
rewrite [LHS]EF; move: Hf1; rewrite (Hf 2%N t2) => -[<-].
by apply/matrixP => i j; rewrite !mxE (mulrS 1 j).
Qed.

Let w2 (k : nat) : C := if k is 0%N then - 2%:R else 1.
Lemma auto2 l (v : 'rV[C]_l) (p : 'S_l) : l = 2%N -> (forall k, v 0 k = w2 (p k)) -> let V f := Model_VarPro.variance (map_mx f v) in
  [\/ [/\ descending (fun z => 'Re z) v, V (fun z => 'Im z) <= V (fun z => 'Re z) & V (fun z => `|z|) <= V (fun z => 'Re z)],
      [/\ descending (fun z => 'Im z) v, V (fun z => `|z|) <= V (fun z => 'Im z) & ~~ (V (fun z => 'Im z) <= V (fun z => 'Re z)) || ~~ (V (fun z => `|z|) <= V (fun z => 'Re z))] |
      [/\ descending (fun z => `|z|) v, ~~ (V (fun z => `|z|) <= V (fun z => 'Im z)) & ~~ (V (fun z => 'Im z) <= V (fun z => 'Re z)) || ~~ (V (fun z => `|z|) <= V (fun z => 'Re z))]] ->
  (forall k, v 0 k \is Num.real) /\ exists i j : 'I_l, (i < j)%N /\ `|'Re (v 0 i)| < `|'Re (v 0 j)|.
Proof.
move=> e; move: v p; rewrite e => {l e} v p E V.
have R k : v 0 k \is Num.real by rewrite E /w2; case: (nat_of_ord (p k)) => [|_]; rewrite ?rpredN ?realn // real1.
have [a [b [Ev Eab]]] : exists a b, (v 0 0 = a /\ v 0 1 = b) /\ ((a = - 2%:R /\ b = 1) \/ (a = 1 /\ b = - 2%:R)).
  exists (v 0 0), (v 0 1); split=> //; rewrite !E; have : p 0 != p 1 by rewrite (inj_eq (@perm_inj _ p)).
  by case: (p 0) => [[|[|?]] ?]; case: (p 1) => [[|[|?]] ?] //= _; [left|right].
have Vf f : V f = (f a - f b) ^+ 2 / 4%:R.
  case: Ev => Ea Eb; rewrite /V /Model_VarPro.variance !big_ord_recl !big_ord0 !addr0 !mxE (_ : lift ord0 ord0 = 1) ?Ea ?Eb; last exact: val_inj.
  move: (f a) (f b) => y z.
  have half (y' z' : C) : y' - (y' + z') / 2%:R = (y' - z') / 2%:R.
    by apply: (canRL (mulfK _)); rewrite ?pnatr_eq0 // mulrBl divfK ?pnatr_eq0 // mulr_natr mulr2n opprD addrA addrK.
  have -> : z - (y + z) / 2%:R = - ((y - z) / 2%:R) by rewrite [y + z]addrC half -opprB mulNr.
  rewrite half.
  by rewrite sqrrN -mulr2n -mulr_natr mulrC mulrCA mulVf ?pnatr_eq0 // mulr1 expr_div_n -natrX.
case: Ev => Ea Eb; have [Ra Rb] : a \is Num.real /\ b \is Num.real by rewrite -Ea -Eb !R.
have q0 : (0 : C) <= 4%:R^-1 by rewrite invr_ge0 ler0n.
have HI : V (fun z => 'Im z) <= V (fun z => 'Re z).
  by rewrite !Vf !(Creal_ImP _ _) // subrr expr0n mul0r mulr_ge0 // -realEsqr rpredB // Creal_Re.
have H1 : 2%:R - 1 = 1 :> C by rewrite -(natrB C (isT : (1 <= 2)%N)).
have HN : V (fun z => `|z|) <= V (fun z => 'Re z).
  rewrite !Vf !(Creal_ReP _ _) // ler_wpmul2r //; case: Eab => -[-> ->]; rewrite !normrN normr1 normr_nat.
    by rewrite H1 -opprD sqrrN expr1n -(natrD C 2 1) -natrX ler1n.
  by rewrite -(opprB 2%:R) H1 opprK sqrrN expr1n -(natrD C 1 2) -natrX ler1n.
case=> [[D _ _]|[_ _]|[_ _]]; rewrite ?HI ?HN //; split=> //; exists 0, 1; split=> //.
have := D 0 1 isT; rewrite Ea Eb !(Creal_ReP _ _) //; case: Eab => -[-> ->].
  have L : - 2%:R < 1 :> C by apply: (@lt_trans _ _ 0); rewrite ?ltr01 // oppr_lt0 ltr0n.
  by rewrite (lt_geF L).
by rewrite normrN normr1 normr_nat ltr1n.
Qed.
(** 'auto' puts the eigenvalue 1 before -2 although the documentation promises descending absolute values *)
Theorem C49_auto_refuted (X : 'M[C]_(2, 3)) t : let w k := if k is 0%N then - 2%:R else 1 : C in let x := runner w w in
  let d := varpro_init C 2 (Model_Utils.RInt (BinInt.Z.of_nat 2)) true SgAuto 0 in
  exists d' o (i j : 'I_(vo_l o)), [/\ sorts (v_argsort x), fit np x d X t = (d', Ok tt), vd_op d' = Some o, forall k, vo_eigs o 0 k \is Num.real &
    (i < j)%N /\ `|'Re (vo_eigs o 0 i)| < `|'Re (vo_eigs o 0 j)|].
Proof.
move=> w x d; have [r [HA Hl He Hs _]] := @run w w 2 2 X t 2 isT isT.
have [d' HF] : exists d', fit np x d X t = (d', Ok tt).
  rewrite /fit -[~~ vd_exact d]/false HA /=; case: ifP => _; [by eexists|]; case: ifP => _; by eexists.
have [r' [key [p [HA' _ _ Ed]]]] := fitP HF; have Er' : r' = r by move: HA'; rewrite -[~~ vd_exact d]/false HA => -[].
subst r'; exists d', (VOp (col_perm p (vr_modes r)) (col_perm p (vr_eigs r))).
have Eo : vd_op d' = Some (VOp (col_perm p (vr_modes r)) (col_perm p (vr_eigs r))) by rewrite Ed.
have := C49_auto HF (arg_sort_ok : sorts (v_argsort x)) Eo (or_introl erefl).
have E : forall k, col_perm p (vr_eigs r) 0 k = w2 (p k) by move=> k; rewrite mxE He.
by move=> /(auto2 Hl E) [R [i [j [ij H]]]]; exists i, j; split=> //; exact: arg_sort_ok.
Qed.

(** the starting point for data with x' = 2 x in the mean: x = (1, 3) at times 0 and 1/2 has slope 4 and mean 2; the optimiser
    starts from the eigenvalue 1/2 *)
Let stopper : vext C := VExt (fun z => 1 + z) (fun _ b _ => enum 'I_b) (fun m _ => m) arg_sort (fun _ _ _ _ a => Ok ([::], a)).
Example C49_initial_case : let X : 'M[C]_(1, 2) := \row_i (1 + 2%:R * (nat_of_ord i)%:R) in let t : 'rV[C]_2 := \row_i ((nat_of_ord i)%:R / 2%:R) in
  slopes X t = const_mx 4%:R /\ means X = const_mx 2%:R /\
  exists d' o, [/\ fit np stopper d1 X t = (d', Ok tt), vd_op d' = Some o, vo_l o = 1%N & forall j, vo_eigs o 0 j = 2%:R^-1].
Proof.
move=> X t; have n2 : 2%:R != 0 :> C by rewrite pnatr_eq0.
have ES : slopes X t = const_mx 4%:R.
  by apply/matrixP => i j; rewrite !mxE !ord1 /= mulr0 addr0 mul0r subr0 [1 + _]addrC addrK mulr1 mul1r invrK -natrM.
have EM : means X = const_mx 2%:R.
  by apply/matrixP => i j; rewrite !mxE !ord1 /= mulr0 addr0 mulr1 addrAC -mulr2n -[1 *+ 2 + _]mulr2n -mulr_natr mulfK.
do 2 split=> //.
have [d' HF] : exists d', fit np stopper d1 X t = (d', Ok tt).
  by rewrite /fit /compute_any /optimise /=; eexists.
have [r [key [p [HA _ _ Ed]]]] := fitP HF; exists d', (VOp (col_perm p (vr_modes r)) (col_perm p (vr_eigs r))).
have Eo : vd_op d' = Some (VOp (col_perm p (vr_modes r)) (col_perm p (vr_eigs r))) by rewrite Ed.
have Hr : sv_r (compute_svd np (slopes X t) (Model_Utils.RInt (BinInt.Z.of_nat (sv_r (compute_svd np X (vd_rank d1)))))) = 1%N.
  by rewrite [sv_r (compute_svd np X _)]rank_is // rank_is.
have [_ [Eg _]] := ideal_contracts C.
have U1 (c : C) : c != 0 -> (const_mx c : 'M[C]_1) \in unitmx by move=> c0; rewrite unitmxE det_mx11 mxE unitfE.
have HZ : slopes X t = const_mx 2%:R *m means X.
  by rewrite ES EM; apply/matrixP => i j; rewrite !mxE big_ord1 !mxE -natrM.
have RZ : row_free (slopes X t) by rewrite ES row_free_unit; apply: U1; rewrite pnatr_eq0.
have Hst : stops stopper by [].
have H := C49_initial_refuted case_svd (fun r M => proj1 (Eg r M)) Hst (isT : vd_exact d1) HZ (U1 _ n2) RZ Hr HF Eo.
split=> // [|j].
  rewrite /=; move: HA; rewrite /compute_any /optimise -[~~ vd_exact d1]/false => -[<-].
  rewrite -[LHS]/(sv_r (compute_svd np (z_out X t) (Model_Utils.RInt (BinInt.Z.of_nat (sv_r (compute_svd np X (vd_rank d1))))))).
  by rewrite [sv_r (compute_svd np X _)]rank_is // rank_is.
have [e0 [v v0 Ev]] := H j.
have : v 0 0 != 0 by apply: contraNneq v0 => Z; apply/eqP/matrixP => a b; rewrite !ord1 Z mxE.
have := congr1 (fun M : 'M[C]_1 => M 0 0) Ev; rewrite !mxE big_ord1 !mxE => E N.
by rewrite (mulIf N E) invrK.
Qed.
End Ex.

Print Assumptions C49_schedule_refuted.
Print Assumptions C49_recovery_case.
Print Assumptions C49_refit_refuted.
Print Assumptions C49_auto_refuted.
Print Assumptions C49_initial_case.
