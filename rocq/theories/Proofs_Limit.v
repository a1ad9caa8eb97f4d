(** * Limits at 0 along the real numbers, entry by entry for matrices *)
From mathcomp Require Import all_ssreflect all_fingroup all_algebra.
From Verif Require Import LinAlg Proofs_LandoDeriv.
Set Implicit Arguments. Unset Strict Implicit. Unset Printing Implicit Defensive.
Import Order.TTheory GRing.Theory Num.Theory.
Local Open Scope ring_scope.

Section Limit.
Variable C : numClosedFieldType.
Implicit Types (F G : C -> C) (a b : C).

Definition near (P : C -> Prop) : Prop := exists2 dl : C, 0 < dl & forall t, t \is Num.real -> t != 0 -> `|t| < dl -> P t.
Definition is_limit F a : Prop := forall e : C, 0 < e -> near (fun t => `|F t - a| <= e).

Lemma near_and P Q : near P -> near Q -> near (fun t => P t /\ Q t).
Proof.
case=> d1 p1 H1 [d2 p2 H2]; case: (real_leP (gtr0_real p1) (gtr0_real p2)) => L.
  by exists d1 => // t R N T; split; [exact: H1 | apply: H2 => //; exact: lt_le_trans T L].
by exists d2 => // t R N T; split; [apply: H1 => //; exact: lt_trans T L | exact: H2].
Qed.
Lemma near_imp (P Q : C -> Prop) : (forall t, t \is Num.real -> t != 0 -> P t -> Q t) -> near P -> near Q.
Proof. by move=> H [d p Hd]; exists d => // t R N T; apply: H => //; exact: Hd. Qed.
Lemma nearT (P : C -> Prop) : (forall t, t \is Num.real -> t != 0 -> P t) -> near P.
Proof. by move=> H; exists 1 => [|t R N _]; [exact: ltr01 | exact: H]. Qed.

Lemma limit_near F G a : near (fun t => F t = G t) -> is_limit F a -> is_limit G a.
Proof. by move=> N H e e0; have := near_and N (H e e0); apply: near_imp => t _ _ [<-]. Qed.
Lemma limit_ext F G a : (forall t, t \is Num.real -> t != 0 -> F t = G t) -> is_limit F a -> is_limit G a.
Proof. by move=> H; apply: limit_near; exact: nearT. Qed.
Lemma limit_const a : is_limit (fun=> a) a.
Proof. by move=> e e0; apply: nearT => t _ _; rewrite subrr normr0 ltW. Qed.
Lemma limit_id : is_limit id 0.
Proof. by move=> e e0; exists e => // t _ _ /ltW; rewrite subr0. Qed.
Lemma limitD F G a b : is_limit F a -> is_limit G b -> is_limit (fun t => F t + G t) (a + b).
Proof.
move=> HF HG e e0; have e2 : 0 < e / 2%:R by rewrite divr_gt0 // ltr0n.
apply: near_imp (near_and (HF _ e2) (HG _ e2)) => t _ _ [H1 H2].
by rewrite opprD addrACA; apply: le_trans (ler_norm_add _ _) _; rewrite (splitr e) ler_add.
Qed.
Lemma limitN F a : is_limit F a -> is_limit (fun t => - F t) (- a).
Proof. by move=> H e e0; apply: near_imp (H e e0) => t _ _; rewrite -opprD normrN. Qed.
Lemma limitB F G a b : is_limit F a -> is_limit G b -> is_limit (fun t => F t - G t) (a - b).
Proof. by move=> HF HG; apply: limitD => //; exact: limitN. Qed.
Lemma limit_conj F a : is_limit F a -> is_limit (fun t => (F t)^*) a^*.
Proof. by move=> H e e0; apply: near_imp (H e e0) => t _ _; rewrite -rmorphB norm_conjC. Qed.
Lemma limit_bound F a : is_limit F a -> near (fun t => `|F t| <= `|a| + 1).
Proof.
move=> H; apply: near_imp (H 1 ltr01) => t _ _ L; rewrite -[F t](subrK a) addrC.
by apply: le_trans (ler_norm_add _ _) _; rewrite ler_add2l.
Qed.
Lemma limitM F G a b : is_limit F a -> is_limit G b -> is_limit (fun t => F t * G t) (a * b).
Proof.
move=> HF HG e e0.
have p1 : 0 < `|a| + 1 by rewrite ltr_paddl.
have p2 : 0 < `|b| + 1 by rewrite ltr_paddl.
have e1 : 0 < e / 2%:R / (`|a| + 1) by rewrite !divr_gt0 // ltr0n.
have e2 : 0 < e / 2%:R / (`|b| + 1) by rewrite !divr_gt0 // ltr0n.
apply: near_imp (near_and (near_and (HF _ e2) (HG _ e1)) (limit_bound HF)) => t _ _ [[H1 H2] H3].
have -> : F t * G t - a * b = F t * (G t - b) + (F t - a) * b by rewrite mulrBr mulrBl addrA subrK.
apply: le_trans (ler_norm_add _ _) _; rewrite !normrM (splitr e); apply: ler_add.
  rewrite -[X in _ <= X](mulfVK (lt0r_neq0 p1)) mulrC; exact: ler_pmul.
apply: le_trans (_ : e / 2%:R / (`|b| + 1) * (`|b| + 1) <= _); last by rewrite divfK // lt0r_neq0.
by apply: ler_pmul => //; rewrite ler_addl.
Qed.
Lemma limitV F a : a != 0 -> is_limit F a -> is_limit (fun t => (F t)^-1) a^-1.
Proof.
move=> a0 HF e e0; have na : 0 < `|a| by rewrite normr_gt0.
have n2 : 0 < `|a| / 2%:R by rewrite divr_gt0 // ltr0n.
have e1 : 0 < e * (`|a| / 2%:R * `|a|) by apply: mulr_gt0 => //; exact: mulr_gt0.
apply: near_imp (near_and (HF _ n2) (HF _ e1)) => t _ _ [H1 H2].
have L : `|a| / 2%:R <= `|F t|.
  have : `|a| <= `|a - F t| + `|F t| by rewrite -{1}[a](subrK (F t)) ler_norm_add.
  rewrite distrC => L; rewrite -(ler_add2l (`|a| / 2%:R)) -splitr; apply: le_trans L _; exact: ler_add.
have F0 : F t != 0 by rewrite -normr_gt0; exact: lt_le_trans L.
have -> : (F t)^-1 - a^-1 = (a - F t) / (F t * a) by rewrite mulrBl invfM mulrCA mulfV // mulr1 mulrA mulfV // mul1r.
rewrite normrM normfV normrM ler_pdivr_mulr ?mulr_gt0 ?normr_gt0 // distrC; apply: le_trans H2 _.
by rewrite ler_pmul2l // ler_pmul2r.
Qed.
Lemma limit_sum (I : finType) (P : pred I) (F : I -> C -> C) (a : I -> C) : (forall i, is_limit (F i) (a i)) ->
  is_limit (fun t => \sum_(i | P i) F i t) (\sum_(i | P i) a i).
Proof.
move=> H; rewrite -big_filter; apply: (@limit_ext (fun t => \sum_(i <- enum P) F i t)); first by move=> t _ _; rewrite big_enum.
rewrite big_filter -big_enum; elim: (enum P) => [|i s IH].
  by rewrite big_nil; apply: (limit_ext (F := fun=> 0)) (limit_const 0) => t; rewrite big_nil.
rewrite big_cons; apply: (limit_ext (F := fun t => F i t + \sum_(j <- s) F j t)); last exact: limitD.
by move=> t; rewrite big_cons.
Qed.
Lemma limit_prod (I : finType) (F : I -> C -> C) (a : I -> C) : (forall i, is_limit (F i) (a i)) ->
  is_limit (fun t => \prod_i F i t) (\prod_i a i).
Proof.
move=> H; rewrite unlock; elim: (index_enum I) => [|i s IH] /=; last exact: limitM.
exact: limit_const.
Qed.

Lemma limit_derivative F a : is_limit (fun t => (F t - F 0) / t) a -> is_derivative F a.
Proof.
move=> H e e0; have [d d0 Hd] := H e e0; exists d => // t R T.
have [->|N] := eqVneq t 0; first by rewrite subrr mul0r subrr normr0 mulr0.
have := Hd t R N T; rewrite -(ler_pmul2r (_ : 0 < `|t|)) ?normr_gt0 // -normrM mulrBl divfK //.
by rewrite [a * t]mulrC.
Qed.
Lemma derivative_limit F a : is_derivative F a -> is_limit (fun t => (F t - F 0) / t) a.
Proof.
move=> H e e0; have [d d0 Hd] := H e e0; exists d => // t R N T.
rewrite -(ler_pmul2r (_ : 0 < `|t|)) ?normr_gt0 // -normrM mulrBl divfK // [a * t]mulrC; exact: Hd.
Qed.
Lemma derivative_continuous F a : is_derivative F a -> is_limit F (F 0).
Proof.
move=> /derivative_limit H; have := limitD (limitM H limit_id) (limit_const (F 0)); rewrite mulr0 add0r.
by apply: limit_ext => t _ N; rewrite divfK // subrK.
Qed.
(** a limit is unique *)
Lemma limit_unique F a b : is_limit F a -> is_limit F b -> a = b.
Proof.
move=> Ha Hb; apply/eqP; rewrite -subr_eq0 -normr_le0; apply/negPn/negP => N.
have p : 0 < `|a - b| by rewrite normr_gt0; apply: contraNneq N => ->; rewrite normr0 lexx.
have e0 : 0 < `|a - b| / 4%:R by rewrite divr_gt0 // ltr0n.
have [d d0 Hd] := near_and (Ha _ e0) (Hb _ e0).
have [|||H1 H2] := Hd (d / 2%:R).
- by rewrite realM ?realV ?realn ?gtr0_real.
- by rewrite mulf_neq0 ?invr_eq0 ?pnatr_eq0 // lt0r_neq0.
- by rewrite gtr0_norm ?divr_gt0 ?ltr0n // ltr_pdivr_mulr ?ltr0n // ltr_pmulr // ltr1n.
have : `|a - b| <= `|a - b| / 2%:R.
  have -> : `|a - b| / 2%:R = `|a - b| / 4%:R + `|a - b| / 4%:R.
    by rewrite -mulr2n -[RHS]mulr_natr -mulrA; congr (_ * _); apply: (@mulfI _ 4%:R); rewrite ?pnatr_eq0 // mulrA mulfV ?pnatr_eq0 // mul1r (natrM _ 2 2) mulfK ?pnatr_eq0.
  apply: le_trans (ler_add H1 H2); rewrite [X in _ <= X + _]distrC.
  by have := ler_norm_add (a - F (d / 2%:R)) (F (d / 2%:R) - b); rewrite addrA subrK.
rewrite ler_pdivl_mulr ?ltr0n // ger_pmulr // => /le_lt_trans /(_ (_ : 1 < 2%:R)); rewrite ltr1n ltxx => H; by have := H isT.
Qed.

(** ** Matrices *)
Definition mx_limit m n (F : C -> 'M[C]_(m, n)) (A : 'M[C]_(m, n)) : Prop := forall i j, is_limit (fun t => F t i j) (A i j).
Definition mx_derivative m n (F : C -> 'M[C]_(m, n)) (A : 'M[C]_(m, n)) : Prop := forall i j, is_derivative (fun t => F t i j) (A i j).
Lemma mx_limit_ext m n (F G : C -> 'M[C]_(m, n)) A : (forall t, t \is Num.real -> t != 0 -> F t = G t) -> mx_limit F A -> mx_limit G A.
Proof. by move=> E H i j; apply: limit_ext (H i j) => t R N; rewrite E. Qed.
Lemma mx_limit_near m n (F G : C -> 'M[C]_(m, n)) A : near (fun t => F t = G t) -> mx_limit F A -> mx_limit G A.
Proof. by move=> E H i j; apply: limit_near (H i j); apply: near_imp E => t _ _ ->. Qed.
Lemma mx_limit_const m n (A : 'M[C]_(m, n)) : mx_limit (fun=> A) A.
Proof. by move=> i j; exact: limit_const. Qed.
Lemma mx_limitD m n (F G : C -> 'M[C]_(m, n)) A B : mx_limit F A -> mx_limit G B -> mx_limit (fun t => F t + G t) (A + B).
Proof. by move=> H1 H2 i j; rewrite mxE; apply: limit_ext (limitD (H1 i j) (H2 i j)) => t; rewrite mxE. Qed.
Lemma mx_limitN m n (F : C -> 'M[C]_(m, n)) A : mx_limit F A -> mx_limit (fun t => - F t) (- A).
Proof. by move=> H i j; rewrite mxE; apply: limit_ext (limitN (H i j)) => t; rewrite mxE. Qed.
Lemma mx_limitM m n p (F : C -> 'M[C]_(m, n)) (G : C -> 'M[C]_(n, p)) A B : mx_limit F A -> mx_limit G B ->
  mx_limit (fun t => F t *m G t) (A *m B).
Proof.
move=> H1 H2 i j; rewrite mxE; apply: (limit_ext (F := fun t => \sum_k F t i k * G t k j)) => [t|]; first by rewrite mxE.
by apply: limit_sum => k; exact: limitM.
Qed.
Lemma mx_limit_adj m n (F : C -> 'M[C]_(m, n)) A : mx_limit F A -> mx_limit (fun t => adj (F t)) (adj A).
Proof. by move=> H i j; rewrite adjE; apply: limit_ext (limit_conj (H j i)) => t; rewrite adjE. Qed.
Lemma limit_det n (F : C -> 'M[C]_n) A : mx_limit F A -> is_limit (fun t => \det (F t)) (\det A).
Proof. by move=> H; apply: limit_sum => s; apply: limitM; [exact: limit_const | apply: limit_prod => i]. Qed.
Lemma mx_limit_inv n (F : C -> 'M[C]_n) A : A \in unitmx -> mx_limit F A ->
  near (fun t => F t \in unitmx) /\ mx_limit (fun t => invmx (F t)) (invmx A).
Proof.
move=> U H; have HD := limit_det H; have D0 : \det A != 0 by move: U; rewrite unitmxE unitfE.
have NU : near (fun t => F t \in unitmx).
  have n2 : 0 < `|\det A| / 2%:R by rewrite divr_gt0 ?normr_gt0 ?ltr0n.
  apply: near_imp (HD _ n2) => t _ _; rewrite unitmxE unitfE => L; apply/eqP => E; move: L; rewrite E sub0r normrN.
  by rewrite ler_pdivl_mulr ?ltr0n // ger_pmulr ?normr_gt0 // => /le_lt_trans /(_ (_ : 1 < 2%:R)); rewrite ltr1n ltxx => L; have := L isT.
split=> //; apply: (mx_limit_near (F := fun t => (\det (F t))^-1 *: \adj (F t))).
  by apply: near_imp NU => t _ _ Ut; rewrite /invmx Ut.
rewrite /invmx U => i j; rewrite mxE; apply: (limit_ext (F := fun t => (\det (F t))^-1 * \adj (F t) i j)) => [t|]; first by rewrite [RHS]mxE.
apply: limitM; first exact: limitV.
rewrite mxE; apply: (limit_ext (F := fun t => cofactor (F t) j i)) => [t|]; first by rewrite mxE.
apply: limitM; first exact: limit_const.
by apply: limit_det => a b; rewrite !mxE; apply: limit_ext (H _ _) => t; rewrite !mxE.
Qed.
Lemma mx_derivative_limit m n (F : C -> 'M[C]_(m, n)) A : mx_derivative F A <-> mx_limit (fun t => t^-1 *: (F t - F 0)) A.
Proof.
split=> H i j.
  by apply: limit_ext (derivative_limit (H i j)) => t; rewrite !mxE mulrC.
by apply: limit_derivative; apply: limit_ext (H i j) => t; rewrite !mxE mulrC.
Qed.
Lemma mx_derivative_continuous m n (F : C -> 'M[C]_(m, n)) A : mx_derivative F A -> mx_limit F (F 0).
Proof. by move=> H i j; exact: derivative_continuous (H i j). Qed.
Lemma mx_limit_unique m n (F : C -> 'M[C]_(m, n)) A B : mx_limit F A -> mx_limit F B -> A = B.
Proof. by move=> HA HB; apply/matrixP => i j; exact: limit_unique (HA i j) (HB i j). Qed.
End Limit.
