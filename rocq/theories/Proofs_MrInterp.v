(** * Nearest entries of an axis: onto the axis of the first level and back *)
From Coq Require Import QArith Ring.
From mathcomp Require Import all_ssreflect all_fingroup all_algebra.
From Verif Require Import Py LinAlg Model_Operator Model_BOP Model_CostsWin Model_Costs Model_MrCosts Spec_MrCosts.
Set Implicit Arguments. Unset Strict Implicit. Unset Printing Implicit Defensive.
Import Order.TTheory GRing.Theory Num.Theory.
Local Open Scope ring_scope.

Section Lin.
Variable R : numClosedFieldType.
Implicit Types a b c d u v h : R.
Definition addR a b : R := a + b.
Definition mulR a b : R := a * b.
Definition subR a b : R := a - b.
Definition oppR a : R := - a.
Definition zR : R := 0.
Definition oR : R := 1.
Lemma rt : @ring_theory R zR oR addR mulR subR oppR eq.
Proof.
split; rewrite /addR /mulR /subR /oppR /zR /oR => *; rewrite ?add0r ?mul1r ?addrA ?mulrA ?mulrDl ?subrr //; first exact: addrC.
exact: mulrC.
Qed.
Add Ring Rring : rt.
Lemma norm1 a b : a + b = addR a b. Proof. by []. Qed.
Lemma norm2 a b : a * b = mulR a b. Proof. by []. Qed.
Lemma norm3 a : - a = oppR a. Proof. by []. Qed.
Local Ltac rg := rewrite ?norm1 ?norm2 ?norm3 -?/zR -?/oR; match goal with |- @eq _ ?a ?b => change (@eq (Num.ClosedField.sort R) a b) end; ring.

Lemma telescope_step a b c d h : a + d + c = a + h + b + (c + (d - (b + h))).
Proof. rg. Qed.
Lemma le_of u v e : 0 <= e -> v - u = e -> u <= v. Proof. by move=> H E; rewrite -subr_ge0 E. Qed.
Lemma lt_of u v e : 0 < e -> v - u = e -> u < v. Proof. by move=> H E; rewrite -subr_gt0 E. Qed.
Lemma two_neq0 : (2%:R : R) != 0. Proof. by rewrite pnatr_eq0. Qed.
Lemma twoE : (2%:R : R) = 1 + 1. Proof. by []. Qed.
Lemma mid_le a b v : ((a + b) / 2%:R <= v) = (a + b <= v + v).
Proof. by rewrite ler_pdivr_mulr ?ltr0n // -[2%:R]/(1 + 1) mulrDr !mulr1. Qed.
Lemma mid_lt a b v : ((a + b) / 2%:R < v) = (a + b < v + v).
Proof. by rewrite ltr_pdivr_mulr ?ltr0n // -[2%:R]/(1 + 1) mulrDr !mulr1. Qed.
Lemma le_mid a b v : (v <= (a + b) / 2%:R) = (v + v <= a + b).
Proof. by rewrite ler_pdivl_mulr ?ltr0n // -[2%:R]/(1 + 1) mulrDr !mulr1. Qed.
Lemma lt_mid a b v : (v < (a + b) / 2%:R) = (v + v < a + b).
Proof. by rewrite ltr_pdivl_mulr ?ltr0n // -[2%:R]/(1 + 1) mulrDr !mulr1. Qed.

Local Ltac nonneg := repeat (first [done | by rewrite subr_ge0 | by rewrite subr_ge0 ltW | by apply: ltW | apply: addr_ge0]).

(** the inequalities of the argument; [tau]: the entry of the axis nearest to [v] *)
Lemma near_right a tau v h : a + tau <= v + v -> tau - a <= h -> tau - v + (tau - v) <= h.
Proof.
move=> A B; apply: (le_of (e := (v + v - (a + tau)) + (h - (tau - a)))); first by rewrite addr_ge0 ?subr_ge0.
rg.
Qed.
Lemma near_left tau b v h : v + v < tau + b -> b - tau <= h -> v - tau + (v - tau) < h.
Proof.
move=> A B; apply: (lt_of (e := (tau + b - (v + v)) + (h - (b - tau)))); first by rewrite ltr_paddr ?subr_gt0 ?subr_ge0.
rg.
Qed.
(** a + b < 2 tau when v - a >= 2h, 2(v - tau) <= h: the middle between the previous window and this one *)
Lemma mid_below a v tau h : 0 < h -> h + h <= v - a -> v - tau + (v - tau) <= h -> a + v < tau + tau.
Proof.
move=> H A B; apply: (lt_of (e := h + ((v - a - (h + h)) + (h - (v - tau + (v - tau)))))).
  by rewrite ltr_paddr // addr_ge0 ?subr_ge0.
rg.
Qed.
Lemma mid_above b v tau h : 0 <= h -> h + h <= b - v -> tau - v + (tau - v) <= h -> tau + tau <= v + b.
Proof.
move=> H A B; apply: (le_of (e := h + ((b - v - (h + h)) + (h - (tau - v + (tau - v)))))).
  by rewrite addr_ge0 // addr_ge0 ?subr_ge0.
rg.
Qed.
Lemma half_below v tau dl h : 0 < h -> h + h <= dl -> v - tau + (v - tau) <= h -> v - dl / 2%:R < tau.
Proof.
move=> H A B; have D : dl = dl / 2%:R + dl / 2%:R by rewrite -mulrDl -mulr2n -mulr_natr mulfK ?two_neq0.
rewrite -(ltr_pmul2r (ltr0Sn _ 1)) -[2%:R]/(1 + 1) !mulrDr !mulr1 -[1 + 1]/2%:R.
apply: (lt_of (e := h + ((dl - (h + h)) + (h - (v - tau + (v - tau)))))); first by rewrite ltr_paddr // addr_ge0 ?subr_ge0.
move: (dl / 2%:R) D => e ->; rg.
Qed.
Lemma half_above v tau dl h : 0 < h -> h + h <= dl -> tau - v + (tau - v) <= h -> tau < v + dl / 2%:R.
Proof.
move=> H A B; have D : dl = dl / 2%:R + dl / 2%:R by rewrite -mulrDl -mulr2n -mulr_natr mulfK ?two_neq0.
rewrite -(ltr_pmul2r (ltr0Sn _ 1)) -[2%:R]/(1 + 1) !mulrDr !mulr1 -[1 + 1]/2%:R.
apply: (lt_of (e := h + ((dl - (h + h)) + (h - (tau - v + (tau - v)))))); first by rewrite ltr_paddr // addr_ge0 ?subr_ge0.
move: (dl / 2%:R) D => e ->; rg.
Qed.
(** a window at [v], its neighbour at least 2h away, an entry of the axis beyond [v] *)
Lemma far_left v w tau h : 0 < h -> tau < v -> h + h <= w - v -> w - tau + (w - tau) <= h -> False.
Proof.
move=> H A B D; suff : h < h by rewrite ltxx.
apply: lt_le_trans D; apply: (lt_of (e := h + ((w - v - (h + h)) + (w - v - (h + h)) + ((v - tau) + (v - tau) + (h + h))))).
  by apply: ltr_paddr; [nonneg | rewrite ?subr_gt0].
rg.
Qed.
Lemma far_right v w tau h : 0 < h -> w < tau -> h + h <= w - v -> tau - v + (tau - v) <= h -> False.
Proof.
move=> H A B D; suff : h < h by rewrite ltxx.
apply: lt_le_trans D; apply: (lt_of (e := h + ((w - v - (h + h)) + (w - v - (h + h)) + ((tau - w) + (tau - w) + (h + h))))).
  by apply: ltr_paddr; [nonneg | rewrite ?subr_gt0].
rg.
Qed.
(** the next entry [b] of the axis after [tau] < v *)
Lemma next_in tau b v : tau < v -> v + v < tau + b -> v < b.
Proof.
move=> A B; apply: (lt_of (e := (tau + b - (v + v)) + (v - tau))); first by rewrite addr_gt0 ?subr_gt0.
rg.
Qed.
Lemma next_half tau b v w h : tau < v -> b - tau <= h -> h + h <= w - v -> b + b <= v + w.
Proof.
move=> A B D; apply: (le_of (e := (v - tau) + (v - tau) + (h - (b - tau)) + (h - (b - tau)) + (w - v - (h + h)))).
  by nonneg.
rg.
Qed.
Lemma next_lt tau b v w h : 0 <= h -> tau < v -> b - tau <= h -> h + h <= w - v -> b <= w.
Proof.
move=> H A B D; apply: (le_of (e := (v - tau) + h + (h - (b - tau)) + (w - v - (h + h)))).
  by nonneg.
rg.
Qed.
Lemma prev_in a tau v : v < tau -> a + tau <= v + v -> a < v.
Proof.
move=> A B; apply: (lt_of (e := (tau - v) + (v + v - (a + tau)))); first by rewrite ltr_paddr ?subr_gt0 ?subr_ge0.
rg.
Qed.
Lemma prev_half a tau v u h : v < tau -> tau - a <= h -> h + h <= v - u -> u + v < a + a.
Proof.
move=> A B D; apply: (lt_of (e := (tau - v) + ((tau - v) + (h - (tau - a)) + (h - (tau - a)) + (v - u - (h + h))))).
  by apply: ltr_paddr; [nonneg | rewrite ?subr_gt0].
rg.
Qed.
Lemma prev_gt a tau v u h : 0 <= h -> v < tau -> tau - a <= h -> h + h <= v - u -> u <= a.
Proof.
move=> H A B D; apply: (le_of (e := (tau - v) + h + (h - (tau - a)) + (v - u - (h + h)))).
  by nonneg.
rg.
Qed.
End Lin.

Section Axis.
Variable C : numClosedFieldType.
Implicit Types l q : seq C.

Lemma count_prefix (T : Type) (P : pred T) (s : seq T) x0 k : (k <= size s)%N ->
  (forall i, (i < k)%N -> P (nth x0 s i)) -> (forall i, (k <= i < size s)%N -> ~~ P (nth x0 s i)) -> seq.count P s = k.
Proof.
elim: s k => [|a s IH] [|k] //= L A B.
  rewrite (negbTE (B 0%N isT)) add0n; apply: IH => // i /andP[_ I]; exact: (B i.+1).
by rewrite (A 0%N isT) add1n (IH k) // => i I; [exact: (A i.+1) | exact: (B i.+1)].
Qed.

Lemma size_middles l : size (middles l) = (size l).-1. Proof. by rewrite size_pairmap size_behead. Qed.
Lemma nth_middles l k : (k.+1 < size l)%N -> nth 0 (middles l) k = (nth 0 l k + nth 0 l k.+1) / 2%:R.
Proof.
case: l => // a l /= K; rewrite /middles /= (nth_pairmap 0) //; congr ((_ + _) / _).
Qed.

Lemma inc_lt l i j : increasing l -> (i < j)%N -> (j < size l)%N -> nth 0 l i < nth 0 l j.
Proof. by move=> A I J; apply: (sorted_ltn_nth lt_trans) => //; rewrite inE //; apply: ltn_trans J. Qed.
Lemma inc_le l i j : increasing l -> (i <= j)%N -> (j < size l)%N -> nth 0 l i <= nth 0 l j.
Proof. by rewrite leq_eqVlt => A /orP[/eqP -> //|I] J; apply/ltW/inc_lt. Qed.
Lemma mid_mono l i j : increasing l -> (i <= j)%N -> (j.+1 < size l)%N -> nth 0 (middles l) i <= nth 0 (middles l) j.
Proof.
move=> A I J; rewrite !nth_middles //; last by apply: leq_ltn_trans J.
rewrite ler_pmul2r ?invr_gt0 ?ltr0n // ler_add // inc_le //; exact: ltnW.
Qed.

Lemma nearest_loE l (v : C) k : increasing l -> (k < size l)%N ->
  ((0 < k)%N -> nth 0 l k.-1 + nth 0 l k < v + v) -> ((k.+1 < size l)%N -> v + v <= nth 0 l k + nth 0 l k.+1) ->
  nearest_lo l v = k.
Proof.
move=> A K B D; apply: (count_prefix (x0 := 0)); first by rewrite size_middles; case: (size l) K.
  move=> i I; have k0 : (0 < k)%N by apply: leq_trans I.
  apply: le_lt_trans (mid_mono (j := k.-1) A _ _) _; rewrite ?prednK // -1?ltnS ?prednK //.
  by rewrite nth_middles ?prednK // mid_lt; apply: B.
move=> i; rewrite size_middles => /andP[I J]; have J' : (i.+1 < size l)%N by case: (size l) J.
apply/negP => /(le_lt_trans (mid_mono A I J')); rewrite nth_middles ?mid_lt; last exact: leq_ltn_trans J'.
move=> L; have := lt_le_trans L (D (leq_ltn_trans (n := i.+1) (I : (k.+1 <= i.+1)%N) J')); by rewrite ltxx.
Qed.

(** the nearest entry of the axis *)
Lemma nearest_hiP l (v : C) : increasing l -> all (fun z => z \is Num.real) l -> v \is Num.real -> (0 < size l)%N ->
  let p := nearest_hi l v in
  [/\ (p < size l)%N, (0 < p)%N -> nth 0 l p.-1 + nth 0 l p <= v + v & (p.+1 < size l)%N -> v + v < nth 0 l p + nth 0 l p.+1].
Proof.
move=> A Rl Rv Sl p.
have Rm i : (i.+1 < size l)%N -> nth 0 (middles l) i \is Num.real.
  move=> I; rewrite nth_middles // rpredM ?rpredV ?realn // rpredD //; apply: (allP Rl); apply: mem_nth => //; exact: ltnW.
pose q := find (fun b => ~~ (b <= v)) (middles l).
have Sq : (q <= size (middles l))%N by apply: find_size.
have Bq i : (i < q)%N -> nth 0 (middles l) i <= v by move=> I; have := before_find 0 I => /negbFE.
have Aq i : (q <= i < size (middles l))%N -> ~~ (nth 0 (middles l) i <= v).
  move=> /andP[I J]; have Q : (q < size (middles l))%N by apply: leq_ltn_trans J.
  have := nth_find 0 (a := fun b => ~~ (b <= v)) (s := middles l); rewrite has_find Q => /(_ isT); rewrite -/q => H.
  apply: contra H; apply: le_trans; apply: mid_mono => //; by move: J; rewrite size_middles; case: (size l).
have Ep : p = q by apply: (count_prefix (x0 := 0)).
have Lq : (q < size l)%N by apply: leq_ltn_trans Sq _; rewrite size_middles; case: (size l) Sl.
rewrite Ep; split=> //.
  move=> q0; rewrite -mid_le -{2}(prednK q0) -nth_middles ?prednK //; apply: Bq; by rewrite prednK.
move=> L; have J : (q < size (middles l))%N by rewrite size_middles; case: (size l) L.
have := Aq q; rewrite leqnn J => /(_ isT); rewrite nth_middles // -lt_mid -(nth_middles L) => H.
by rewrite real_ltNge ?Rm.
Qed.

(** ** Onto the axis and back *)
Lemma pmap_head (T : Type) (s : seq (option T)) k (a : T) : (k < size s)%N -> nth None s k = Some a ->
  (forall i, (i < k)%N -> nth None s i = None) -> exists r, pmap id s = a :: r.
Proof.
elim: s k => [|o s IH] [|k] //= K E H; first by rewrite E; eexists.
by have /= -> := H 0%N isT; apply: (IH k) => // i I; exact: (H i.+1).
Qed.
Lemma pmap_none (T : Type) (s : seq (option T)) : (forall i, nth None s i = None) -> pmap id s = [::].
Proof. by elim: s => // o s IH H; have /= -> := H 0%N; apply: IH => i; exact: (H i.+1). Qed.
Lemma pmap_last (s : seq (option nat)) k (a : nat) : (k < size s)%N -> nth None s k = Some a ->
  (forall i, (k < i)%N -> nth None s i = None) -> last 0%N (pmap id s) = a.
Proof.
move=> K E H; rewrite -(cat_take_drop k s) pmap_cat (drop_nth None K) /= E /= last_cat /= pmap_none // => i.
by rewrite nth_drop H // ltnS leq_addr.
Qed.

(** every window of a level is shown at the entry of the axis nearest to it *)
Lemma fill_round h axis q rows k : spaced h axis q -> increasing axis -> increasing q ->
  all (fun z => z \is Num.real) axis -> all (fun z => z \is Num.real) q -> (0 < size axis)%N ->
  fill q axis = Ok rows -> (k < size q)%N -> nth None rows (nearest_hi axis (nth 0 q k)) = Some k.
Proof.
move=> [h0 Da Dq F L] Ia Iq Ra Rq Sa; rewrite /fill; case: ltnP => // Sq.
set rs := [seq interp_at q v | v <- axis]; case Ep: (pmap id rs) => [//|a0 r0].
set dl := nth 0 q 1 - nth 0 q 0; set rs1 := [seq (if _ then Some a0 else _) | p <- zip axis rs]; move=> [<-] K.
have Eh : head 0 q = nth 0 q 0 by case: (q).
have El : last 0 q = nth 0 q (size q).-1 by rewrite nth_last.
have zipE (g : C * option nat -> option nat) (s : seq (option nat)) i : size s = size axis -> (i < size axis)%N ->
    nth None [seq g p | p <- zip axis s] i = g (nth 0 axis i, nth None s i).
  by move=> Sz I; rewrite (nth_map (0, None)) ?size_zip ?Sz ?minnn // nth_zip.
have Srs : size rs = size axis by rewrite size_map.
have Srs1 : size rs1 = size axis by rewrite size_map size_zip Srs minnn.
have rsE i : (i < size axis)%N -> nth None rs i = interp_at q (nth 0 axis i) by move=> I; rewrite (nth_map 0).
have rs1E i : (i < size axis)%N -> nth None rs1 i =
    if (nth 0 q 0 - dl / 2%:R < nth 0 axis i) && (nth 0 axis i < nth 0 q 0) then Some a0 else interp_at q (nth 0 axis i).
  by move=> I; rewrite /rs1 zipE // rsE // Eh.
have Rx i : nth 0 axis i \is Num.real.
  case: (ltnP i (size axis)) => I; [by apply: (allP Ra); apply: mem_nth | by rewrite nth_default ?real0].
have Ry i : nth 0 q i \is Num.real.
  case: (ltnP i (size q)) => I; [by apply: (allP Rq); apply: mem_nth | by rewrite nth_default ?real0].
have Sq0 : (0 < size q)%N by apply: ltn_trans Sq.
have Lq : ((size q).-1 < size q)%N by rewrite prednK.
have La : ((size axis).-1 < size axis)%N by rewrite prednK.
set v := nth 0 q k; set p := nearest_hi axis v.
have [Pp Pl Pr] := nearest_hiP Ia Ra (Ry k) Sa; rewrite -/v -/p in Pp Pl Pr.
set tau := nth 0 axis p in Pl Pr *.
have Hdl : h + h <= dl by apply: Dq.
have NR : tau - v + (tau - v) <= h.
  case: (posnP p) => [p0|p0].
    have Hle : tau <= v by rewrite /tau p0; apply: le_trans F _; apply: inc_le.
    by apply: le_trans (ltW h0); rewrite -[0]addr0 ler_add // subr_le0.
  apply: (near_right (Pl p0)); have := Da p.-1; rewrite prednK //; exact.
have NL : v - tau + (v - tau) <= h.
  case: (ltnP p.+1 (size axis)) => [P1|P1]; first exact: ltW (near_left (Pr P1) (Da _ P1)).
  have Hle : v <= tau.
    have Ep' : (size axis).-1 = p by apply/eqP; rewrite eqn_leq -ltnS prednK // P1 /= -ltnS prednK.
    by rewrite /tau -Ep'; apply: le_trans L; apply: inc_le => //; rewrite -ltnS prednK.
  by apply: le_trans (ltW h0); rewrite -[0]addr0 ler_add // subr_le0.
have Lo u j : (j < size q)%N -> u - nth 0 q j + (u - nth 0 q j) <= h -> nth 0 q j - u + (nth 0 q j - u) <= h -> nearest_lo q u = j.
  move=> J U1 U2; apply: nearest_loE => // J'.
    by have := Dq j.-1; rewrite prednK // => /(_ J) G; apply: mid_below G U2.
  by apply: mid_above (ltW h0) (Dq _ J') U1.
rewrite zipE // rs1E // -/tau El /=.
have Rtau : tau \is Num.real := Rx p.
case: (real_ltP Rtau (Ry 0%N)) => [Lt|Ge].
  (* before the first window *)
  have k0 : k = 0%N.
    case: (posnP k) => // k0; exfalso; apply: (far_left h0 Lt _ NL).
    have := Dq 0%N; move=> /(_ Sq) G; apply: le_trans G _; rewrite ler_add2r; exact: inc_le.
  have Ev : v = nth 0 q 0 by rewrite /v k0.
  rewrite -Ev in Lt.
  have NoR : (nth 0 q (size q).-1 < tau) = false.
    apply: lt_gtF; apply: lt_le_trans Lt _; rewrite Ev; exact: inc_le.
  rewrite NoR andbF -Ev (half_below h0 Hdl NL) andbT k0; congr Some.
  have P1 : (p.+1 < size axis)%N.
    rewrite ltnNge; apply/negP => P1.
    have Ep' : (size axis).-1 = p by apply/eqP; rewrite eqn_leq -ltnS prednK // P1 /= -ltnS prednK.
    have H9 : v <= nth 0 q (size q).-1 by rewrite Ev; exact: inc_le.
    by have := lt_le_trans Lt (le_trans H9 L); rewrite Ep' -/tau ltxx.
  have Hb := next_in Lt (Pr P1); have G0 := Dq 0%N Sq; rewrite -Ev in G0.
  have Nb := next_half Lt (Da _ P1) G0; have Nb2 := next_lt (ltW h0) Lt (Da _ P1) G0.
  have In : interp_at q (nth 0 axis p.+1) = Some 0%N.
    rewrite /interp_at Eh El -Ev (ltW Hb) /= (le_trans Nb2 (inc_le Iq _ Lq)) //; last by rewrite -ltnS prednK.
    by congr Some; apply: nearest_loE => // _; rewrite -Ev.
  have [r Er] : exists r, pmap id rs = 0%N :: r.
    apply: (@pmap_head _ rs p.+1); rewrite ?Srs ?rsE // => i I.
    rewrite rsE; last exact: leq_ltn_trans (I : (i <= p)%N) Pp.
    rewrite /interp_at Eh -Ev; case: (boolP (v <= _)) => // Hle; exfalso.
    have := le_lt_trans (le_trans Hle (inc_le Ia (I : (i <= p)%N) Pp)) Lt; by rewrite ltxx.
  by move: Er; rewrite Ep => -[->].
rewrite andbF.
case: (real_ltP (Ry (size q).-1) Rtau) => [Gt|Le]; last first.
  rewrite andbF /= /interp_at Eh El Ge Le /=; congr Some; exact: Lo.
(* after the last window *)
have kl : k = (size q).-1.
  apply/eqP; rewrite eqn_leq -ltnS prednK // K /= leqNgt; apply/negP => kl.
  apply: (far_right h0 Gt _ NR).
  have := Dq k; rewrite -/v => G; have kl' : (k.+1 < size q)%N by rewrite -(prednK Sq0) ltnS.
  by apply: le_trans (G kl') _; rewrite ler_add2r; apply: inc_le.
have Ev : v = nth 0 q (size q).-1 by rewrite /v kl.
rewrite -Ev in Gt *; rewrite (half_above h0 Hdl NR) /= kl; congr Some.
have Q0 : nth 0 q 0 <= v by rewrite Ev; exact: inc_le.
have p0 : (0 < p)%N.
  case: (posnP p) => // p0; have H9 : tau <= nth 0 q 0 by rewrite /tau p0.
  by have := lt_le_trans Gt (le_trans H9 Q0); rewrite ltxx.
have Dp : tau - nth 0 axis p.-1 <= h by have := Da p.-1; rewrite prednK //; apply.
have k0 : (0 < (size q).-1)%N by rewrite -ltnS prednK.
have G0 : h + h <= v - nth 0 q (size q).-2 by have := Dq (size q).-2; rewrite (prednK k0) -Ev; apply.
have U1 := prev_in Gt (Pl p0); have U2 := prev_half Gt Dp G0; have U3 := prev_gt (ltW h0) Gt Dp G0.
have U4 : nth 0 q 0 <= nth 0 axis p.-1 by apply: le_trans U3; apply: inc_le => //; apply: leq_ltn_trans (leq_pred _) Lq.
have Pp1 : (p.-1 < size axis)%N by apply: leq_ltn_trans (leq_pred _) Pp.
apply: (@pmap_last _ p.-1); first by rewrite Srs1.
  rewrite rs1E // (le_gtF U4) andbF /interp_at Eh El -Ev U4 (ltW U1) /=; congr Some; apply: nearest_loE => //.
    by move=> _; rewrite -Ev.
  by rewrite prednK // ltnn.
move=> i; rewrite prednK // => I; case: (ltnP i (size axis)) => J; last by rewrite nth_default ?Srs1.
have Hi : v < nth 0 axis i by apply: lt_le_trans Gt (inc_le Ia I J).
rewrite rs1E // (lt_gtF (le_lt_trans Q0 Hi)) andbF /interp_at El -Ev; by rewrite (lt_geF Hi) andbF.
Qed.

Lemma nearest_self l k : increasing l -> (k < size l)%N -> nearest_hi l (nth 0 l k) = k.
Proof.
move=> A K; apply: (count_prefix (x0 := 0)); first by rewrite size_middles; case: (size l) K.
  by move=> i I; rewrite nth_middles ?mid_le ?(leq_ltn_trans I) // ler_add // inc_le // ltnW.
move=> i; rewrite size_middles => /andP[I J]; have J' : (i.+1 < size l)%N by case: (size l) J.
by rewrite nth_middles // mid_le lt_geF // ler_lt_add ?inc_le ?inc_lt //; exact: ltnW.
Qed.

(** ** The table of all levels *)
Lemma all_iota (P : pred nat) n : (forall k, (k < n)%N -> P k) -> filter P (iota 0 n) = iota 0 n.
Proof. by move=> H; apply/all_filterP/allP => k; rewrite mem_iota => /andP[_]; apply: H. Qed.

Lemma sourcesP axis (l : seq (level_ds C)) src : sources axis l = Ok src -> size src = size l /\
  forall d dflt, (d < size l)%N -> exists rows, fill (row_times (nth dflt l d)) axis = Ok rows /\
    nth [::] src d = [seq omap (fun j => nth 0%N (kept_rows (nth dflt l d)) j) o | o <- rows].
Proof.
elim: l src => [|a l IH] src /=; first by move=> [<-].
case E: (fill _ _) => [rows|] //=; case F: (sources _ _) => [rest|] //= [<-]; have [Sz H] := IH _ F.
by split=> [|[|d] dflt D] /=; rewrite ?Sz //; [exists rows | apply: H].
Qed.

Lemma mem_positions (da : table C) (d k a : nat) : ((d, k, a) \in positions da) =
  [&& (d < da_levels da)%N, (k < size (da_times da))%N, (a < size (da_cols da))%N & isSome (da_val da d k a)].
Proof.
rewrite mem_filter /=; apply/andP/and4P.
  move=> [V /allpairsP[[[d' k'] a'] /= [/allpairsP[[d2 k2] /= [D K [E1 E2]]] A [E3 E4 E5]]]]; subst.
  by move: D K A; rewrite !mem_iota => *; split.
move=> [D K A V]; split=> //; apply/allpairsP; exists ((d, k), a); split; rewrite ?mem_iota //.
by apply/allpairsP; exists (d, k); rewrite !mem_iota.
Qed.

(** the table: entry (level, row, column) when every window keeps an eigenvalue *)
Definition no_ds : level_ds C := LevelDs [::] 0 (fun _ _ => 0) (fun _ _ => 0%N).
Definition has_fast (d : level_ds C) : Prop :=
  forall k, (k < ds_size d)%N -> has (fun c => 0 < ds_cls d k c)%N (iota 0 (ds_rank d)).
Lemma kept_all (d : level_ds C) : has_fast d -> kept_rows d = iota 0 (ds_size d).
Proof. by move=> H; apply: all_iota. Qed.
Lemma times_all (d : level_ds C) : has_fast d -> row_times d = ds_times d.
Proof.
move=> H; rewrite /row_times kept_all //; apply: (@eq_from_nth _ 0); rewrite size_map size_iota // => k K.
by rewrite (nth_map 0%N) ?size_iota // nth_iota.
Qed.

Lemma deterpE (da : table C) cls (l : seq (level_ds C)) cl : deterp da cls l = Ok cl ->
  [/\ size cls = size (positions da), (da_levels da <= size l)%N, increasing (da_times da) & (0 < size (da_times da))%N] /\
  forall d, (d < da_levels da)%N -> nth (fun _ _ => None) cl d = fun k (a : nat) =>
    let p := (d, nearest_hi (da_times da) (nth 0 (ds_times (nth no_ds l d)) k), a) in
    if p \in positions da then Some (nth 0%N cls (index p (positions da))) else None.
Proof.
rewrite /deterp; case: eqP => // Sc; case: ltnP => // L; case: ifP => // /norP[/negbNE I S] [<-]; split=> [|d D].
  by split=> //; rewrite lt0n.
by rewrite (nth_map 0%N) ?size_iota // nth_iota.
Qed.

Lemma class_at (l : seq (level_ds C)) W da cls cl : interp W l = Ok da -> deterp da cls l = Ok cl ->
  (forall d, (d < size l)%N -> has_fast (nth no_ds l d)) ->
  (forall d, (0 < d < size l)%N -> exists h, spaced h (ds_times (nth no_ds l 0)) (ds_times (nth no_ds l d))) ->
  all (fun d => all (fun z => z \is Num.real) (ds_times d)) l ->
  union_cols l = iota 0 (size (union_cols l)) ->
  forall d k c, (d < size l)%N -> (k < ds_size (nth no_ds l d))%N -> (c < ds_rank (nth no_ds l d))%N ->
  (c < size (union_cols l))%N ->
  class_of (flat_values da) cls (ds_omega (nth no_ds l d) k c) (ds_cls (nth no_ds l d) k c) (nth (fun _ _ => None) cl d k c).
Proof.
rewrite /interp; case: l => [|d0 l'] // I1 I2 HF SP RL UC; set l := d0 :: l' in HF SP RL UC I1 I2 *.
move: I1; case: ifP => // /negbFE Inc; case Es: (sources _ _) => [src|] //; cbn [bind]; case: eqP => // _.
set da' := Table _ _ _ _; move=> [E]; subst da; set da := da' in I2 *.
have [[Sc _ _ S0] Cl] := deterpE I2; move=> d k c D K B U.
have Er : (if l' is [::] then kept_rows d0 else iota 0 (ds_size d0)) = iota 0 (ds_size d0).
  by case: (l') => //; apply: kept_all; exact: (HF 0%N).
have Et : da_times da = ds_times d0.
  rewrite /da /= Er; apply: (@eq_from_nth _ 0); rewrite size_map size_iota // => j J.
  by rewrite (nth_map 0%N) ?size_iota // nth_iota.
have Sax : (0 < size (ds_times d0))%N by rewrite -Et.
have Inc0 : increasing (ds_times d0) by move: Inc => /= /andP[].
have IncD : increasing (ds_times (nth no_ds l d)) by move: Inc => /(all_nthP no_ds) /(_ d D).
rewrite (Cl d D); cbv zeta.
set p := nearest_hi _ _; set dd := nth no_ds l d.
have Pp : (p < size (ds_times d0))%N.
  rewrite /p Et; have [] // := nearest_hiP (l := ds_times d0) (v := nth 0 (ds_times dd) k) Inc0 _ _ Sax.
    by move: RL => /= /andP[].
  by move: RL => /(all_nthP no_ds) /(_ d D) /allP; apply; apply: mem_nth.
have Ev : da_val da d p c = fast_entry dd k c.
  rewrite /da /= -/(union_cols l) UC nth_iota // add0n Er.
  case: (posnP d) => [Ed|d0'].
    rewrite nth_iota // add0n; subst d; rewrite /dd /=; congr fast_entry; rewrite /p Et /dd /=.
    exact: nearest_self.
  have D' : (d.-1 < size l')%N by rewrite -ltnS prednK.
  have Edd : nth no_ds l' d.-1 = dd by rewrite /dd /l -(prednK d0').
  have [_ /(_ d.-1 no_ds D') [rows [Fr ->]]] := sourcesP Es; rewrite Edd in Fr *.
  rewrite times_all in Fr; last exact: HF.
  have [h Sh] : exists h, spaced h (ds_times d0) (ds_times dd) by apply: (SP d); rewrite d0'.
  have := fill_round (k := k) Sh Inc0 IncD _ _ Sax Fr K.
  rewrite -Et -/p => /(_ _ _) Hr.
  have {}Hr : nth None rows p = Some k.
    apply: Hr; first by rewrite Et; move: RL => /= /andP[]. by move: RL => /(all_nthP no_ds) /(_ d D).
  have Pr : (p < size rows)%N by rewrite ltnNge; apply/negP => Lp; move: Hr; rewrite nth_default.
  rewrite (nth_map None) // Hr /= kept_all; last exact: HF.
  by rewrite nth_iota // add0n (set_nth_default no_ds d0 D).
rewrite mem_positions Et Pp Ev /= -/(union_cols l) U D /= /fast_entry B /=.
rewrite /class_of lt0n; case: eqP => //= /eqP; rewrite -lt0n => G.
have Mp : (d, p, c) \in positions da by rewrite mem_positions Et Pp Ev /= -/(union_cols l) U D /= /fast_entry B G.
exists (index (d, p, c) (positions da)); split=> //; first by rewrite size_map index_mem.
by rewrite (nth_map (0, 0, 0)%N) ?index_mem // nth_index // -[da_val _ _ _ _]/(da_val da d p c) Ev /fast_entry B G.
Qed.
End Axis.
