(** * LANDO: derivatives along a direction *)
From mathcomp Require Import all_ssreflect all_algebra.
From Verif Require Import Py LinAlg Model_Operator Spec_Operator Model_Lando Spec_Lando Proofs_Lando.
Set Implicit Arguments. Unset Strict Implicit. Unset Printing Implicit Defensive.
Import Order.TTheory GRing.Theory Num.Theory.
Local Open Scope ring_scope.

Section Deriv.
Variable C : numClosedFieldType.
(** [a] is the derivative at 0 of a function of one real number *)
Definition is_derivative (F : C -> C) (a : C) : Prop :=
  forall e, 0 < e -> exists2 dl, 0 < dl & forall t, t \is Num.real -> `|t| < dl -> `|F t - F 0 - t * a| <= e * `|t|.

Lemma derivative_ext F G a : (forall t, t \is Num.real -> F t = G t) -> is_derivative F a -> is_derivative G a.
Proof.
by move=> E H e e0; have [dl dl0 Hd] := H e e0; exists dl => // t Rt Lt; rewrite -!E ?real0 //; apply: Hd.
Qed.
Lemma poly_bound (p : {poly C}) : exists2 B : C, 0 < B & forall t, `|t| <= 1 -> `|p.[t]| <= B.
Proof.
elim/poly_ind: p => [|p c [B B0 IH]]; first by exists 1 => [|t _]; rewrite ?ltr01 // horner0 normr0 ler01.
exists (B + `|c|); first by apply: ltr_paddr.
move=> t Ht; rewrite hornerMXaddC; apply: (le_trans (ler_norm_add _ _)); apply: ler_add => //.
by rewrite normrM -[B]mulr1; apply: ler_pmul => //; exact: IH.
Qed.
Lemma poly_split (p : {poly C}) : exists q c, p = q * 'X + c%:P.
Proof. by elim/poly_ind: p => [|p c _]; [exists 0, 0; rewrite mul0r polyC0 addr0 | exists p, c]. Qed.
Lemma poly_derivative (p : {poly C}) : is_derivative (fun t => p.[t]) p^`().[0].
Proof.
move=> e e0; have [q [c Ep]] := poly_split p; have [r [c1 Eq]] := poly_split q; have [B B0 HB] := poly_bound r.
have B1 : 0 < B + 1 by rewrite ltr_paddr ?ler01.
have E t : p.[t] - p.[0] - t * p^`().[0] = t * (t * r.[t]).
  have -> : p^`().[0] = c1 by rewrite Ep derivD derivM derivX derivC addr0 mulr1 hornerD hornerM hornerX mulr0 add0r Eq hornerMXaddC mulr0 add0r.
  rewrite Ep Eq !hornerMXaddC !mulr0 !add0r addrK mulrDl [c1 * t]mulrC addrK.
  by rewrite mulrC; congr (_ * _); rewrite mulrC.
exists (e / (B + 1 + e)).
  by apply: divr_gt0 => //; apply: addr_gt0.
move=> t Rt Lt; have Pe : 0 < B + 1 + e by apply: addr_gt0.
have L1 : `|t| <= 1.
  apply: ltW; apply: (lt_le_trans Lt); rewrite ler_pdivr_mulr // mul1r ler_addr; exact: ltW.
rewrite E !normrM mulrC; apply: ler_wpmul2r; first exact: normr_ge0.
apply: (le_trans (ler_pmul (normr_ge0 _) (normr_ge0 _) (ltW Lt) (HB t L1))).
rewrite -mulrA ler_pimulr ?(ltW e0) // mulrC ler_pdivr_mulr // mul1r -addrA ler_addl addr_ge0 ?ler01 ?(ltW e0) //.
Qed.
Lemma derivative0 : is_derivative (fun=> 0) 0.
Proof. by move=> e e0; exists 1 => [|t _ _]; rewrite ?ltr01 // mulr0 !subrr normr0 mulr_ge0 ?normr_ge0 ?(ltW e0). Qed.
Lemma derivativeD F G a b : is_derivative F a -> is_derivative G b -> is_derivative (fun t => F t + G t) (a + b).
Proof.
move=> HF HG e e0; have e2 : 0 < e / 2%:R by rewrite divr_gt0 ?ltr0n.
have [d1 p1 H1] := HF _ e2; have [d2 p2 H2] := HG _ e2.
have [d3 p3 [L1 L2]] : exists2 d3, 0 < d3 & d3 <= d1 /\ d3 <= d2.
  by case: (real_leP (gtr0_real p1) (gtr0_real p2)) => [L|/ltW L]; [exists d1 | exists d2].
exists d3 => // t Rt Lt.
have -> : F t + G t - (F 0 + G 0) - t * (a + b) = (F t - F 0 - t * a) + (G t - G 0 - t * b).
  by rewrite mulrDr !opprD addrACA [LHS]addrACA.
apply: (le_trans (ler_norm_add _ _)); rewrite [e]splitr mulrDl; apply: ler_add.
  by apply: H1 => //; apply: lt_le_trans L1.
by apply: H2 => //; apply: lt_le_trans L2.
Qed.
Lemma derivativeZ F a c : is_derivative F a -> is_derivative (fun t => c * F t) (c * a).
Proof.
move=> H e e0; have c1 : 0 < `|c| + 1 by rewrite ltr_paddl ?normr_ge0 ?ltr01.
have ec : 0 < e / (`|c| + 1) by rewrite divr_gt0.
have [dl p HF] := H _ ec; exists dl => // t Rt Lt.
have -> : c * F t - c * F 0 - t * (c * a) = c * (F t - F 0 - t * a) by rewrite !mulrBr [t * (c * a)]mulrCA.
rewrite normrM; apply: (le_trans (ler_wpmul2l (normr_ge0 _) (HF t Rt Lt))).
rewrite mulrA; apply: ler_wpmul2r; first exact: normr_ge0.
by rewrite mulrCA ler_pimulr ?(ltW e0) // ler_pdivr_mulr // mul1r ler_addl ler01.
Qed.
Lemma derivative_sum m (F : 'I_m -> C -> C) (a : 'I_m -> C) : (forall i, is_derivative (F i) (a i)) ->
  is_derivative (fun t => \sum_i F i t) (\sum_i a i).
Proof.
elim: m F a => [|m IH] F a H; first by apply: (derivative_ext (F := fun=> 0)) => [t _|]; rewrite ?big_ord0 //; exact: derivative0.
rewrite big_ord_recl; apply: (derivative_ext (F := fun t => F ord0 t + \sum_i F (lift ord0 i) t)) => [t _|].
  by rewrite big_ord_recl.
by apply: derivativeD => //; apply: IH => i; exact: H.
Qed.
Lemma derivative_line b : is_derivative (fun t => t * b) b.
Proof. by move=> e e0; exists 1 => [|t _ _]; rewrite ?ltr01 // mul0r subr0 subrr normr0 mulr_ge0 ?normr_ge0 ?(ltW e0). Qed.
(** a function that increases has no negative derivative *)
Lemma derivative_sign F a : is_derivative F a -> (forall t, 0 < t -> t < 1 -> F 0 < F t) -> a < 0 -> False.
Proof.
move=> H I a0; have na : 0 < - a by rewrite oppr_gt0.
have [dl p HF] := H _ na.
have [t t0 [L1 L2]] : exists2 t, 0 < t & t < dl /\ t < 1.
  have [dm p' [M1 M2]] : exists2 dm, 0 < dm & dm <= dl /\ dm <= 1.
    by case: (real_leP (gtr0_real p) (@real1 C)) => [L|/ltW L]; [exists dl | exists 1; rewrite ?ltr01].
  have h : dm / 2%:R < dm by rewrite ltr_pdivr_mulr ?ltr0n // ltr_pmulr // ltr1n.
  by exists (dm / 2%:R); [rewrite divr_gt0 ?ltr0n | split; apply: lt_le_trans h _].
have Rt := gtr0_real t0; have := HF t Rt; rewrite (gtr0_norm t0) => /(_ L1).
have P : 0 < F t - F 0 by rewrite subr_gt0; apply: I.
have Q : 0 < - (t * a) by rewrite -mulrN mulr_gt0.
rewrite (gtr0_norm (addr_gt0 P Q)) mulNr [a * t]mulrC -ler_subr_addr subrr => L.
by have := lt_le_trans P L; rewrite ltxx.
Qed.
End Deriv.
