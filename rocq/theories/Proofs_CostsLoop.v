(** Invariants of the loop over the windows *)
From Coq Require Import QArith.
From mathcomp Require Import all_ssreflect all_fingroup all_algebra.
From Verif Require Import Py LinAlg Model_Operator Model_BOP Model_CostsWin Model_Costs Spec_Costs Spec_CostsWin.
From Verif Require Import Proofs_CostsWin Proofs_Costs Proofs_CostsFit.
From Verif Require Proofs_BOP Proofs_BOPEig.
From Verif Require Model_Utils.
Set Implicit Arguments. Unset Strict Implicit. Unset Printing Implicit Defensive.
Import Order.TTheory GRing.Theory Num.Theory.
Local Open Scope ring_scope.
Local Notation "# n" := (BinInt.Z.of_nat n) (at level 5, format "# n").

Section Loop.
Variable C : numClosedFieldType.
Variable np : numpy C.
Variable x : ext C.
Variable y : cext C.

Lemma push_idem (c : constr C) r (e : 'rV[C]_r) : push_in_place c (push_in_place c e) = push_in_place c e.
Proof.
case: c => // s; rewrite /push_in_place; case: (c_stable s && ~~ c_conj s) => //.
by rewrite (Proofs_BOPEig.stable_id (e := make_stable e)) // => j; apply: Proofs_BOPEig.stable_le0.
Qed.

(** everything about a successful fit *)
Theorem fit_inv fuel n (c : costs C n) kw sharp T (X : 'M[C]_(n, T)) m (t : 'rV[C]_m) (w d : nat) c' kw' :
  (0 < w)%N -> (0 < d)%N -> rounds (y_fl y) #T #w ->
  fit np x y fuel c kw sharp X t #w #d = Some (c', kw', Ok tt) ->
  exists (e : m = T) g pre alpha rk s1 (rs : seq (wres C n w)),
    [/\ allocate np (c_cfg c) kw X = Ok (g, kw', pre), initialization g (c_bands c) = Ok alpha, cc_rank g = Some rk,
        fit_loop np x y fuel g kw' sharp X (castmx (erefl, e) t) w pre rk alpha (listed T w d) (start_dmd kw' rk alpha) = Some (Ok rs)
      & c' = Costs (set_cc_alpha g alpha) s1 (Some (Fitted pre rs)) (c_bands c)] /\ windows_of s1 (listed T w d).
Proof.
move=> w0 d0 R; rewrite /fit.
case Ew: (fit_windows _ _ _ _ _ _ _) => [s1 [[]|e]] //; case: (@eqP _ m T) => // Em.
have wT : (w <= T)%N.
  rewrite leqNgt; apply/negP => L; move: Ew; rewrite -Em /fit_windows BinInt.Z.eqb_refl /= /build_windows.
  have -> : BinInt.Z.ltb #m #w = true by apply/BinInt.Z.ltb_lt/Znat.inj_lt; apply/ssrnat.ltP; rewrite Em.
  by do 2 case: ifP => // _.
case Al: (allocate _ _ _ _) => // [[[g kw1] pre]]; case In: (initialization _ _) => // [alpha].
have Lw : windows_of s1 (listed T w d).
  apply: (@listed_of (y_fl y) (c_win c) #n) => //; try exact/ssrnat.leP.
  by rewrite -Ew Em.
rewrite (all_windows_listed Lw); move: (BinInt.Z.to_nat #w) (Znat.Nat2Z.id w) => w' ->; case Rk: (cc_rank g) => // [rk].
case F: (fit_loop _ _ _ _ _ _ _ _ _ _ _ _ _ _ _) => [[rs|]|] // [<- <-].
by exists Em, g, pre, alpha, rk, s1, rs; split.
Qed.

(** when fit succeeds *)
Lemma fit_ok fuel n (c : costs C n) kw sharp T (X : 'M[C]_(n, T)) (t : 'rV[C]_T) (w : nat) d s1 g kw1 pre al ls rk rs :
  fit_windows (y_fl y) (c_win c) #n #T #T #w d = (s1, Ok tt) -> allocate np (c_cfg c) kw X = Ok (g, kw1, pre) ->
  initialization g (c_bands c) = Ok al -> all_windows s1 = Ok ls -> cc_rank g = Some rk ->
  fit_loop np x y fuel g kw1 sharp X t w pre rk al ls (start_dmd kw1 rk al) = Some (Ok rs) ->
  fit np x y fuel c kw sharp X t #w d = Some (Costs (set_cc_alpha g al) s1 (Some (Fitted pre rs)) (c_bands c), kw1, Ok tt).
Proof.
move=> Ew Ea Ei El Er Lo; rewrite /fit Ew; case: (@eqP _ T T) => // e; rewrite (eq_axiomK e) castmx_id Ea Ei El Er.
by move: (BinInt.Z.to_nat #w) (Znat.Nat2Z.id w) => w' ->; rewrite Lo.
Qed.

Section Inv.
Variables (fuel n : nat) (g : ccfg C) (kw : kwargs C n) (sharp : C) (T : nat) (X : 'M[C]_(n, T)) (t : 'rV[C]_T) (w pre : nat)
  (rk : Model_Utils.rank_arg) (alpha : option {r & 'rV[C]_r}).
Variable P : nat -> bop C n -> Prop.

(** an invariant of the BOPDMD object before each window *)
Hypothesis step : forall k d l d1 q r' (u : bop_op C n q r'), P k d ->
  fit_window np x fuel (prepare np g kw (input_of y sharp X w l) rk d) (input_of y sharp X w l) (times_of t w l) = Some (d1, Ok tt) ->
  b_op d1 = Some (Some (existT _ q (existT _ r' u))) -> P k.+1 (after g alpha d1 (bo_eigs u)).

Lemma loop_inv ls d rs k0 : P k0 d -> fit_loop np x y fuel g kw sharp X t w pre rk alpha ls d = Some (Ok rs) ->
  size rs = size ls /\ forall k r0, (k < size ls)%N ->
    exists2 d', P (k0 + k)%N d' & stores np x y fuel g kw sharp X t pre rk d' (nth [::] ls k) (nth r0 rs k).
Proof.
elim: ls d rs k0 => [|l ls IH] d rs k0 Pd; first by move=> [<-].
rewrite /= -/(input_of y sharp X w l) -/(times_of t w l).
case E: (@fit_window _ np x fuel n w _ (input_of y sharp X w l) (times_of t w l)) => [[d1 [[]|]]|] //.
case O: (b_op d1) => [[[q [r u]]|]|] //; case: ltnP => // L.
case F: (fit_loop np x y fuel g kw sharp X t w pre rk alpha ls (after g alpha d1 (bo_eigs u))) => [[t'|]|] // [<-].
have [S H] := IH _ _ k0.+1 (step Pd E O) F; split; first by rewrite /= S.
move=> [|k] r0 K.
  by rewrite addn0; exists d => //; exists d1; split=> //; exists q, r, u.
by have [d' Pd' St] := H k r0 K; exists d'; rewrite ?addnS // -addSn.
Qed.
End Inv.

(** ** Without a global basis and without use_last_freq: every window on its own *)
Section Local.
Variables (fuel n : nat) (g : ccfg C) (kw : kwargs C n) (sharp : C) (T : nat) (X : 'M[C]_(n, T)) (t : 'rV[C]_T) (w pre : nat)
  (rk : Model_Utils.rank_arg) (alpha : option {r & 'rV[C]_r}).
Hypotheses (NG : ~~ cc_global g).

Lemma fit_window_ext (d d' : bop C n) (Xw : 'M[C]_(n, w)) tw : b_cfg d = b_cfg d' -> b_alpha d = b_alpha d' ->
  fit_window np x fuel (prepare np g kw Xw rk d) Xw tw = fit_window np x fuel (prepare np g kw Xw rk d') Xw tw.
Proof. by case: d => ? ? ? ? ? ? ?; case: d' => ? ? ? ? ? ? ? /= -> ->; rewrite /prepare (negbTE NG). Qed.

Lemma stores_ext (d d' : bop C n) l (r : wres C n w) : b_cfg d = b_cfg d' -> b_alpha d = b_alpha d' ->
  stores np x y fuel g kw sharp X t pre rk d l r -> stores np x y fuel g kw sharp X t pre rk d' l r.
Proof. by move=> E E' [d1 [F H]]; exists d1; split=> //; rewrite -F; apply: fit_window_ext. Qed.

Lemma loop_local ls rs : ~~ cc_last g ->
  fit_loop np x y fuel g kw sharp X t w pre rk alpha ls (start_dmd kw rk alpha) = Some (Ok rs) ->
  size rs = size ls /\ forall k r0, (k < size ls)%N ->
    stores np x y fuel g kw sharp X t pre rk (start_dmd kw rk (if (0 < k)%N && cc_reset g then None else alpha))
      (nth [::] ls k) (nth r0 rs k).
Proof.
move=> NL; pose P k (d : bop C n) := b_cfg d = kw_cfg kw /\ b_alpha d = if (0 < k)%N && cc_reset g then None else alpha.
have step k d l d1 q r' (u : bop_op C n q r') : P k d ->
    fit_window np x fuel (prepare np g kw (input_of y sharp X w l) rk d) (input_of y sharp X w l) (times_of t w l) = Some (d1, Ok tt) ->
    b_op d1 = Some (Some (existT _ q (existT _ r' u))) -> P k.+1 (after g alpha d1 (bo_eigs u)).
  move=> [Pc _]; rewrite /fit_window => /Proofs_BOP.fitP [_ [e [q' [P' [r [al [o [u' [_ _ _ _ Ed]]]]]]]]] _.
  rewrite /after (negbTE NG) (negbTE NL) /= Ed; rewrite /prepare (negbTE NG) /= in Ed *.
  by rewrite /P; case: (cc_reset g); split=> //=; rewrite ?Pc.
move=> F; have [|S H] := loop_inv step (k0 := 0%N) _ F; first by split.
split=> // k r0 K; have [d' [Pc Pa] St] := H k r0 K; exact: stores_ext St.
Qed.

(** use_last_freq: every later window starts from the eigenvalues of the window before *)
Lemma loop_last_from ls d rs : cc_last g -> b_cfg d = kw_cfg kw ->
  fit_loop np x y fuel g kw sharp X t w pre rk alpha ls d = Some (Ok rs) ->
  size rs = size ls /\ forall k r0, (k < size ls)%N ->
    stores np x y fuel g kw sharp X t pre rk
      (start_dmd kw rk (if k is k'.+1 then Some (existT _ _ (wr_eigs (nth r0 rs k'))) else b_alpha d)) (nth [::] ls k) (nth r0 rs k).
Proof.
move=> La; elim: ls d rs => [|l ls IH] d rs Cd; first by move=> [<-].
rewrite /= -/(input_of y sharp X w l) -/(times_of t w l).
case E: (@fit_window _ np x fuel n w _ (input_of y sharp X w l) (times_of t w l)) => [[d1 [[]|]]|] //.
case O: (b_op d1) => [[[q [r u]]|]|] //; case: ltnP => // L.
case F: (fit_loop np x y fuel g kw sharp X t w pre rk alpha ls (after g alpha d1 (bo_eigs u))) => [[t'|]|] // [<-].
have Ca : b_cfg (after g alpha d1 (bo_eigs u)) = kw_cfg kw.
  have [_ [e [q' [P' [r' [al [o [u' [_ _ _ _ ->]]]]]]]]] := Proofs_BOP.fitP E.
  by rewrite /after (negbTE NG) La /= /prepare (negbTE NG).
have [S H] := IH _ _ Ca F; split; first by rewrite /= S.
move=> [|k] r0 K.
  by apply: (stores_ext (d := d)) => //; exists d1; split=> //; exists q, r, u.
have := H k r0 K; case: k K => [|k] K //=.
by rewrite /after (negbTE NG) La.
Qed.
Lemma loop_last ls rs : cc_last g ->
  fit_loop np x y fuel g kw sharp X t w pre rk alpha ls (start_dmd kw rk alpha) = Some (Ok rs) ->
  size rs = size ls /\ forall k r0, (k < size ls)%N ->
    stores np x y fuel g kw sharp X t pre rk
      (start_dmd kw rk (if k is k'.+1 then Some (existT _ _ (wr_eigs (nth r0 rs k'))) else alpha)) (nth [::] ls k) (nth r0 rs k).
Proof. by move=> La F; apply: (loop_last_from La _ F). Qed.
End Local.

(** ** With a global basis: the same basis and the same initial eigenvalues for all the windows *)
Section Global.
Variables (fuel n : nat) (g : ccfg C) (kw : kwargs C n) (sharp : C) (T : nat) (X : 'M[C]_(n, T)) (t : 'rV[C]_T) (w pre : nat)
  (rk : Model_Utils.rank_arg) (alpha : option {r & 'rV[C]_r}).
Hypotheses (G : cc_global g).

Lemma loop_global ls rs qU : kw_basis kw = Some qU ->
  fit_loop np x y fuel g kw sharp X t w pre rk alpha ls (start_dmd kw rk alpha) = Some (Ok rs) ->
  size rs = size ls /\ exists ra, (forall a, alpha = Some a -> ra = a) /\ forall k r0, (k < size ls)%N ->
    exists2 d', b_cfg d' = kw_cfg kw /\ b_basis d' = Some qU /\
      b_alpha d' = (if k is k'.+1 then Some (existT _ (projT1 ra) (push_in_place (bc_con (kw_cfg kw)) (projT2 ra))) else alpha)
    & stores np x y fuel g kw sharp X t pre rk d' (nth [::] ls k) (nth r0 rs k).
Proof.
move=> EB; case: ls => [|l ls]; first by move=> [<-]; split=> //; case: alpha => [a|]; [exists a; split=> // a' [] | exists (existT (fun r => 'rV[C]_r) 0%N (const_mx 0))].
rewrite /= -/(input_of y sharp X w l) -/(times_of t w l).
case E: (@fit_window _ np x fuel n w _ (input_of y sharp X w l) (times_of t w l)) => [[d1 [[]|]]|] //.
case O: (b_op d1) => [[[q [r u]]|]|] //; case: ltnP => // L.
case F: (fit_loop np x y fuel g kw sharp X t w pre rk alpha ls (after g alpha d1 (bo_eigs u))) => [[t'|]|] // [<-].
have := E; rewrite /fit_window => /Proofs_BOP.fitP [_ [e [q' [P' [r' [al [o [u' [Gb Ga _ _ Ed]]]]]]]]].
move: Gb Ga Ed; rewrite /prepare G /get_basis /get_alpha /= EB.
case: ifP => // _ [EqU] Ga Ed.
pose ra : {r & 'rV[C]_r} := existT _ r' al.
pose P (k : nat) (d : bop C n) := [/\ b_cfg d = kw_cfg kw, b_basis d = Some qU &
  b_alpha d = Some (existT _ r' (push_in_place (bc_con (kw_cfg kw)) al))].
have step k d l0 d2 q2 r2 (u2 : bop_op C n q2 r2) : P k d ->
    fit_window np x fuel (prepare np g kw (input_of y sharp X w l0) rk d) (input_of y sharp X w l0) (times_of t w l0) = Some (d2, Ok tt) ->
    b_op d2 = Some (Some (existT _ q2 (existT _ r2 u2))) -> P k.+1 (after g alpha d2 (bo_eigs u2)).
  move=> [Pc Pb Pa]; rewrite /fit_window /prepare G => /Proofs_BOP.fitP [_ [e2 [q3 [P3 [r3 [al3 [o3 [u3 [Gb3 Ga3 _ _ ->]]]]]]]]] _.
  move: Gb3 Ga3; rewrite /get_basis /get_alpha /= Pb Pa Pc; case: ifP => // _ [<-]; case: ifP => // _ Eok.
  pose Fp (a : {r & 'rV[C]_r}) : {r & 'rV[C]_r} := existT _ (projT1 a) (push_in_place (bc_con (kw_cfg kw)) (projT2 a)).
  have Eal : existT _ r3 al3 = Fp ra := esym (congr1 (fun o => if o is Ok v then v else ra) Eok).
  rewrite /after G; split=> //=; congr Some.
  have -> : existT [eta matrix C 1] r3 (push_in_place (bc_con (kw_cfg kw)) al3) = Fp (existT _ r3 al3) by [].
  by rewrite Eal /Fp /= push_idem.
have [|S H] := loop_inv step (k0 := 1%N) _ F.
  by rewrite /after G Ed; split=> //=; rewrite -EqU.
split; first by rewrite /= S.
exists ra; split.
  by move=> a Ea; move: Ga; rewrite Ea; case: ifP => // _ [].
move=> [|k] r0 K.
  by exists (start_dmd kw rk alpha) => //; exists d1; split=> //; exists q, r, u.
by have [d' [Pc Pb Pa] St] := H k r0 K; exists d'.
Qed.
End Global.
End Loop.
