(** * Proofs about bags, sorting, the bagging loop and the statistics of Model_BOP.v *)
From Coq Require Import QArith Lia.
From mathcomp Require Import all_ssreflect all_fingroup all_algebra.
From Verif Require Import Py LinAlg Model_Operator Spec_Operator Proofs_Operator Model_BOP Spec_BOP.
From Verif Require Model_Utils.
Set Implicit Arguments. Unset Strict Implicit. Unset Printing Implicit Defensive.
Import Order.TTheory GRing.Theory Num.Theory.
Local Open Scope ring_scope.

Section Bag.
Variable C : numClosedFieldType.
Variable x : ext C.

(** ** Bags *)
Lemma batch_ok M ts b : batch_size M ts = Ok b -> (0 < b <= M)%N.
Proof.
rewrite /batch_size; case: (match ts with TInt _ => _ | TNum _ => _ end)=> [c|//] /=.
by case: ltnP=> // L; case: eqP=> // /eqP N [<-]; rewrite lt0n N.
Qed.

Lemma bagP k M ts l : choice_ok x -> bag x k M ts = Ok l ->
  exists b, [/\ batch_size M ts = Ok b, size l = b & sorted (fun i j : 'I_M => (i < j)%N) l].
Proof.
move=> Hc; rewrite /bag; case E : (batch_size M ts)=> [b|//] /= [<-]; exists b.
have /andP [_ L] := batch_ok E; have [U S] := Hc k M b L.
split=> //; first by rewrite size_sort.
have : sorted ltn (map (@nat_of_ord M) (sort (fun i j : 'I_M => (i <= j)%N) (x_choice x k M b))).
  have -> : map (@nat_of_ord M) (sort (fun i j : 'I_M => (i <= j)%N) (x_choice x k M b)) =
            sort leq (map (@nat_of_ord M) (x_choice x k M b)) by exact: map_sort.
  rewrite ltn_sorted_uniq_leq sort_uniq map_inj_uniq ?U ?sort_sorted //; last exact: ord_inj.
  exact: leq_total.
by rewrite sorted_map.
Qed.

(** ** Sorting *)
Lemma key_imag_total : total (@key_imag C).
Proof.
move=> a b; rewrite /key_imag.
have [L|L|E] := real_ltgtP (Creal_Im a) (Creal_Im b); rewrite ?orbT //=.
by rewrite /=; exact: real_leVge (Creal_Re a) (Creal_Re b).
Qed.
Lemma key_imag_trans : transitive (@key_imag C).
Proof.
move=> b a c; rewrite /key_imag => /orP [L1|/andP [/eqP E1 L1]] /orP [L2|/andP [/eqP E2 L2]].
- by rewrite (lt_trans L1 L2).
- by rewrite -E2 L1.
- by rewrite E1 L2.
by rewrite E1 E2 eqxx (le_trans L1 L2) orbT.
Qed.
Lemma argsort_inj r (le : C -> C -> bool) (e : 'rV[C]_r) : injective (argsort le e).
Proof.
move=> i j; rewrite /argsort; set l := sort _ _.
have Sz : size l = r by rewrite size_sort -cardE card_ord.
rewrite (set_nth_default j) ?Sz // => /eqP; rewrite nth_uniq ?Sz // ?sort_uniq ?enum_uniq //.
by move=> /eqP /val_inj.
Qed.
Lemma argsort_le r (le : C -> C -> bool) (e : 'rV[C]_r) (i j : 'I_r) : total le -> transitive le -> (i <= j)%N ->
  le (e 0 (argsort le e i)) (e 0 (argsort le e j)).
Proof.
move=> T Tr L; rewrite /argsort; set R := fun a b => le (e 0 a) (e 0 b); set l := sort R _.
have Sz : size l = r by rewrite size_sort -cardE card_ord.
have St : sorted R l by apply: sort_sorted=> a b; exact: T.
have Tr' : transitive R by move=> a b c; exact: Tr.
have Re : reflexive R by move=> a; have := T (e 0 a) (e 0 a); rewrite orbb.
rewrite [nth j l j](set_nth_default i) ?Sz //.
by have := sorted_leq_nth Tr' Re i St; apply; rewrite ?inE ?Sz.
Qed.

Lemma argsort_eigsP so r (e : 'rV[C]_r) so' s : argsort_eigs so e = Ok (so', s) ->
  sorted_by so' e s /\ so' = (match so with EsAuto => auto_sort e | _ => so end).
Proof.
rewrite /argsort_eigs; set sx := match so with EsAuto => _ | _ => _ end.
case E : sx => //= -[<- <-]; split=> //; split; try exact: argsort_inj; move=> i j L /=.
- have := argsort_le e (@key_real_total C) (@key_real_trans C) L.
  by move=> /orP [->|/andP [/eqP -> ->]]; [left|right].
- have := argsort_le e key_imag_total key_imag_trans L.
  by move=> /orP [->|/andP [/eqP -> ->]]; [left|right].
exact: (argsort_le e (@key_abs_total C) (@key_abs_trans C) L).
Qed.

(** ** The loop *)
Section Loop.
Variables (cfg : bop_cfg C) (n q r : nat) (run : nat -> result (trial_out C n q r)).
Definition got (i : nat) : trial_out C n q r := if run i is Ok o then o else TrialOut 0 0 0 0 None false.
Let ke := kept cfg got.
Definition keepers (k L : nat) : seq nat := [seq i <- iota k L | ke i].
Definition sort_used (so : esort) (l : seq nat) : esort :=
  if l is i :: _ then (match so with EsAuto => auto_sort (to_e (got i)) | _ => so end) else so.
Definition total a b (f : trial_out C n q r -> 'M[C]_(a, b)) (l : seq nat) (g : nat -> 'I_b -> 'I_b) (h : C -> C) :
  'M[C]_(a, b) := \matrix_(i, j) \sum_(k <- l) h (f (got k) i (g k j)).

Lemma auto_stable (e : 'rV[C]_r) : auto_sort e <> EsAuto.
Proof. by rewrite /auto_sort; case: ifP=> // _; case: ifP. Qed.

Lemma keepersS k L : keepers k L.+1 = (if ke k then k :: keepers k.+1 L else keepers k.+1 L).
Proof. by rewrite /keepers /=. Qed.

Lemma loopE fuel k good fails so (s : sums C n r) :
  bag_loop cfg run fuel.+1 k good fails so s =
  if bc_trials cfg <= good%:Z then Some (Ok s)
  else match run k with
      | Err e => Some (Err e)
      | Ok o =>
          if to_conv o || ~~ bc_remove cfg then
            match argsort_eigs so (to_e o) with
            | Err e => Some (Err e)
            | Ok (so', p) =>
                if 0%:Z == bc_maxfail cfg then Some (Err RuntimeError)
                else bag_loop cfg run fuel k.+1 good.+1 0 so' (add_trial s o p)
            end
          else if fails.+1%:Z == bc_maxfail cfg then Some (Err RuntimeError)
          else bag_loop cfg run fuel k.+1 good fails.+1 so s
      end.
Proof. by []. Qed.

Record good_run (so : esort) (k good fails L : nat) (g : nat -> 'I_r -> 'I_r) (s t : sums C n r) : Prop := GoodRun {
  gr_ok : forall i, (k <= i < k + L)%N -> run i = Ok (got i);
  gr_le : bc_trials cfg <= (good + size (keepers k L))%:Z;
  gr_eq : (0 < L)%N -> bc_trials cfg = (good + size (keepers k L))%:Z /\ ke (k + L).-1;
  gr_sort : forall i, i \in keepers k L -> sorted_by (sort_used so (keepers k L)) (to_e (got i)) (g i);
  gr_w : su_w t = su_w s + total (fun o => to_w o) (keepers k L) g id;
  gr_e : su_e t = su_e s + total (fun o => to_e o) (keepers k L) g id;
  gr_b : su_b t = su_b s + total (fun o => to_b o) (keepers k L) g id;
  gr_w2 : su_w2 t = su_w2 s + total (fun o => to_w o) (keepers k L) g (fun z => `|z| ^+ 2);
  gr_e2 : su_e2 t = su_e2 s + total (fun o => to_e o) (keepers k L) g (fun z => `|z| ^+ 2);
  gr_b2 : su_b2 t = su_b2 s + total (fun o => to_b o) (keepers k L) g (fun z => `|z| ^+ 2);
  gr_fail : forall a mf, bc_maxfail cfg = mf%:Z -> (k <= a + fails)%N -> (a + mf <= k + L)%N -> (fails < mf)%N ->
    exists2 i, (k <= i)%N && (a <= i < a + mf)%N & ke i;
  gr_pos : keepers k L != [::] -> bc_maxfail cfg != 0 }.

Lemma total_nil a b f g h : @total a b f [::] g h = 0.
Proof. by apply/matrixP=> i j; rewrite !mxE big_nil. Qed.
Lemma total_cons a b f i l g h :
  @total a b f (i :: l) g h = (\matrix_(u, v) h (f (got i) u (g i v))) + total f l g h.
Proof. by apply/matrixP=> u v; rewrite !mxE big_cons. Qed.
Lemma total_eq a b f l g g' h : {in l, g =1 g'} -> @total a b f l g h = total f l g' h.
Proof.
by move=> E; apply/matrixP=> i j; rewrite !mxE; apply: eq_big_seq=> k kl; rewrite E.
Qed.

Lemma good_run0 so k good fails s : bc_trials cfg <= good%:Z -> good_run so k good fails 0 (fun _ => id) s s.
Proof.
move=> D; split; rewrite /keepers /= ?total_nil ?addr0 ?addn0 //.
- by move=> i /andP [L1 L2]; move: (leq_ltn_trans L1 L2); rewrite ltnn.
by move=> a mf _ L1 L2 L3; move: (leq_trans L2 L1); rewrite leq_add2l leqNgt L3.
Qed.

Lemma loop_okP fuel k good fails so s t : bag_loop cfg run fuel k good fails so s = Some (Ok t) ->
  exists L g, (L <= fuel)%N /\ good_run so k good fails L g s t.
Proof.
elim: fuel k good fails so s => [|fuel IH] k good fails so s.
  rewrite /=; case: ifP=> // D [<-]; exists 0%N, (fun _ => id); split=> //; exact: good_run0.
rewrite loopE; case: ifP=> [D [<-]|D].
  exists 0%N, (fun _ => id); split=> //; exact: good_run0.
case Ek : (run k)=> [o|//].
have G : got k = o by rewrite /got Ek.
case: ifP=> K.
  have Kk : ke k by rewrite /ke /kept G.
  case Es : (argsort_eigs so (to_e o))=> [[so' p]|//].
  case: ifP=> // M /IH [L] [g] [LL GR]; have [Sp Eso] := argsort_eigsP Es.
  have Ks : keepers k L.+1 = k :: keepers k.+1 L by rewrite keepersS Kk.
  pose g' i := if i == k then p else g i.
  have gk : g' k = p by rewrite /g' eqxx.
  have gE : {in keepers k.+1 L, g =1 g'}.
    by move=> i; rewrite mem_filter mem_iota /g' => /andP [_ /andP [Li _]]; rewrite (gtn_eqF Li).
  have SU : sort_used so (keepers k L.+1) = so' by rewrite Ks /= G Eso.
  have SU' l : sort_used so' l = so'.
    case: l=> [|i l] //=; rewrite Eso; case: (so)=> //.
    by case E : (auto_sort (to_e o))=> //; have := auto_stable E.
  exists L.+1, g'; split=> //; split; rewrite ?Ks ?total_cons.
  - move=> i /andP [L1 L2]; have [e|N] := eqVneq i k; first by rewrite e G.
    by apply: (gr_ok GR); rewrite addSnnS L2 andbT ltn_neqAle eq_sym N.
  - by have := gr_le GR; rewrite /= addnS addSn.
  - move=> _; case: (posnP L)=> [E0|Lp].
      subst L; have := gr_le GR; rewrite /keepers /= addn0 addn1 => Le.
      split; last by rewrite addn1.
      apply/eqP; rewrite eq_le Le /= intS addrC lez_addr1 ltNge; exact/negbT.
    have [Ea Eb] := gr_eq GR Lp; split; first by rewrite Ea /= addnS addSn.
    by move: Eb; rewrite addSnnS.
  - move=> i; rewrite -Ks SU Ks inE /g'; case: eqP=> [-> _|_ /= Li]; first by rewrite G.
    by have := gr_sort GR Li; rewrite SU'.
  1-6: by rewrite ?(gr_w GR, gr_e GR, gr_b GR, gr_w2 GR, gr_e2 GR, gr_b2 GR) addrA; congr (_ + _ + _);
    [apply/matrixP=> u v; rewrite !mxE gk G|exact: total_eq gE].
  - move=> a mf Em L1 L2 L3; have [La|La] := leqP a k; last first.
      have P0 : (0 < mf)%N by apply: leq_ltn_trans L3.
      have L1' : (k.+1 <= a + 0)%N by rewrite addn0.
      have L2' : (a + mf <= k.+1 + L)%N by rewrite addSnnS.
      have [i Li Ki] := gr_fail GR Em L1' L2' P0.
      by exists i=> //; move: Li=> /andP [Li ->]; rewrite (ltnW Li).
    exists k=> //; rewrite leqnn La /=; apply: leq_ltn_trans L1 _.
    by rewrite ltn_add2l.
  - by rewrite eq_sym => _; apply/negP=> /eqP E; move: M; rewrite E eqxx.
have Kk : ke k = false by rewrite /ke /kept G.
case: ifP=> // M /IH [L] [g] [LL GR].
have Ks : keepers k L.+1 = keepers k.+1 L by rewrite keepersS Kk.
exists L.+1, g; split=> //; split; rewrite ?Ks ?(gr_le GR) //; try by case: GR.
- move=> i /andP [L1 L2]; have [e|N] := eqVneq i k; first by rewrite e G.
  by apply: (gr_ok GR); rewrite addSnnS L2 andbT ltn_neqAle eq_sym N.
- move=> _; case: L LL GR Ks => [|L] LL GR Ks.
    by have := gr_le GR; rewrite /keepers /= addn0 D.
  by have [//|Ea Eb] := gr_eq GR; split=> //; rewrite addnS -addSn.
- move=> a mf Em L1 L2 L3.
  have L4 : (fails.+1 < mf)%N.
    by rewrite ltn_neqAle L3 andbT; apply/negP=> /eqP E; move: M; rewrite Em E eqxx.
  have L1' : (k.+1 <= a + fails.+1)%N by rewrite addnS ltnS.
  have L2' : (a + mf <= k.+1 + L)%N by rewrite addSnnS.
  have [i Li Ki] := gr_fail GR Em L1' L2' L4.
  by exists i=> //; move: Li=> /andP [Li ->]; rewrite (ltnW Li).
Qed.

(** why the loop raises *)
Definition bag_stop (so : esort) (k good fails L : nat) (e : exn) : Prop :=
  (forall i, (k <= i < k + L)%N -> run i = Ok (got i)) /\ (good + size (keepers k L))%:Z < bc_trials cfg /\
  [\/ run (k + L)%N = Err e,
      exists2 o, run (k + L)%N = Ok o & ke (k + L)%N /\ argsort_eigs (sort_used so (keepers k L)) (to_e o) = Err e,
      [/\ e = RuntimeError, bc_maxfail cfg = 0, run (k + L)%N = Ok (got (k + L)%N) & ke (k + L)%N] |
      exists a mf, [/\ e = RuntimeError, bc_maxfail cfg = mf%:Z, run (k + L)%N = Ok (got (k + L)%N),
        (k <= a + fails)%N /\ (a + mf)%N = (k + L).+1 &
        forall i, (k <= i)%N -> (a <= i < a + mf)%N -> ke i = false]].

Lemma loop_errP fuel k good fails so s e : (fails <= k)%N -> bag_loop cfg run fuel k good fails so s = Some (Err e) ->
  exists2 L, (L < fuel)%N & bag_stop so k good fails L e.
Proof.
elim: fuel k good fails so s => [|fuel IH] k good fails so s Lf; first by rewrite /=; case: ifP.
rewrite loopE; case: ifP=> // D.
have Dp : good%:Z < bc_trials cfg by rewrite ltNge D.
have R0 i : (k <= i < k + 0)%N -> run i = Ok (got i).
  by rewrite addn0=> /andP [L1 L2]; move: (leq_ltn_trans L1 L2); rewrite ltnn.
case Ek : (run k)=> [o|e']; last first.
  by move=> [<-]; exists 0%N=> //; split=> //; split; rewrite /keepers /= ?addn0 //; apply: Or41.
have G : got k = o by rewrite /got Ek.
case: ifP=> K.
  have Kk : ke k by rewrite /ke /kept G.
  case Es : (argsort_eigs so (to_e o))=> [[so' p]|e']; last first.
    move=> [<-]; exists 0%N=> //; split=> //; split; rewrite /keepers /= ?addn0 //.
    by apply: Or42; exists o.
  case: eqP=> [M [<-]|M].
    exists 0%N=> //; split=> //; split; rewrite /keepers /= ?addn0 //.
    by apply: Or43; split; rewrite // G.
  move=> /IH [//|L LL [H1 [H2 H3]]]; have [Sp Eso] := argsort_eigsP Es.
  have Ks : keepers k L.+1 = k :: keepers k.+1 L by rewrite keepersS Kk.
  have SU l : sort_used so' l = so'.
    case: l=> [|i l] //=; rewrite Eso; case: (so)=> //.
    by case E : (auto_sort (to_e o))=> //; have := auto_stable E.
  exists L.+1=> //; split; [|split].
  - move=> i /andP [L1 L2]; have [->|N] := eqVneq i k; first by rewrite G.
    by apply: H1; rewrite addSnnS L2 andbT ltn_neqAle eq_sym N.
  - by rewrite Ks /= addnS -addSn.
  rewrite -addSnnS Ks /= G -Eso; move: H3; rewrite SU; case=> [H|H|H|[a] [mf] [H4 H5 H6 [H7 H8] H9]].
  - exact: Or41.
  - exact: Or42.
  - exact: Or43.
  apply: Or44; exists a, mf; split=> //; first by rewrite addn0 in H7; split=> //; apply: leq_trans (ltnW H7) (leq_addr _ _).
  move=> i _ Li; apply: H9=> //; rewrite addn0 in H7; apply: leq_trans H7 _; by case/andP: Li.
have Kk : ke k = false by rewrite /ke /kept G.
case: eqP=> [M [<-]|M].
  exists 0%N=> //; split=> //; split; rewrite /keepers /= ?addn0 //.
  apply: Or44; exists (k - fails)%N, fails.+1; split=> //; rewrite ?G //.
  - by rewrite subnK // addnS subnK.
  by move=> i L1; rewrite addnS subnK // ltnS => /andP [_ L2]; rewrite (_ : i = k) //; apply/eqP; rewrite eqn_leq L1 L2.
move=> /IH [//|L LL [H1 [H2 H3]]].
have Ks : keepers k L.+1 = keepers k.+1 L by rewrite keepersS Kk.
exists L.+1=> //; split; [|split].
- move=> i /andP [L1 L2]; have [->|N] := eqVneq i k; first by rewrite G.
  by apply: H1; rewrite addSnnS L2 andbT ltn_neqAle eq_sym N.
- by rewrite Ks.
rewrite -addSnnS Ks; move: H3; case=> [H|H|H|[a] [mf] [H4 H5 H6 [H7 H8] H9]].
- exact: Or41.
- exact: Or42.
- exact: Or43.
apply: Or44; exists a, mf; split=> //; first by rewrite addnS ltnS in H7.
move=> i Li; rewrite leq_eqVlt in Li; case/orP: Li=> [/eqP <- //|Li]; exact: H9.
Qed.

(** more rounds change nothing *)
Lemma loop_more fuel fuel' k good fails so s v : (fuel <= fuel')%N ->
  bag_loop cfg run fuel k good fails so s = Some v -> bag_loop cfg run fuel' k good fails so s = Some v.
Proof.
elim: fuel fuel' k good fails so s => [|fuel IH] [|fuel'] k good fails so s //; first by move=> _ /=; case: ifP.
rewrite ltnS=> L; rewrite !loopE; case: ifP=> // _; case: (run k)=> // o; case: ifP=> _.
  by case: (argsort_eigs _ _)=> // -[so' p]; case: ifP=> // _; exact: IH.
by case: ifP=> // _; exact: IH.
Qed.

(** a positive bag_maxfail bounds the number of rounds *)
Lemma loop_ends fuel k good fails so s N mf : bc_trials cfg = N%:Z -> bc_maxfail cfg = mf%:Z -> (fails < mf)%N ->
  ((N - good) * mf <= fuel + fails)%N -> bag_loop cfg run fuel k good fails so s <> None.
Proof.
move=> EN EM; elim: fuel k good fails so s => [|fuel IH] k good fails so s Lf Lm.
  rewrite /= EN lez_nat; case: leqP=> // L; move: Lm; rewrite add0n leqNgt => /negP []; apply: leq_trans Lf _.
  by rewrite leq_pmull // subn_gt0.
rewrite loopE EN lez_nat; case: leqP=> // L; case: (run k)=> // o.
case: ifP=> _.
  case: (argsort_eigs _ _)=> // -[so' p]; case: ifP=> // _; apply: IH; first exact: leq_ltn_trans Lf.
  move: Lm; rewrite addn0 subnS; have : (0 < N - good)%N by rewrite subn_gt0.
  case: (N - good)%N=> // d _; rewrite mulSn /= addSnnS => Lm.
  by rewrite -(leq_add2l mf); apply: leq_trans Lm _; rewrite addnC leq_add2r.
rewrite EM eqz_nat; case: eqP=> // /eqP N1; apply: IH; first by rewrite ltn_neqAle N1.
by rewrite addnS -addSn.
Qed.
(** so does keeping every trial *)
Lemma loop_keeps fuel k good fails so s N : bc_trials cfg = N%:Z -> ~~ bc_remove cfg -> (N - good <= fuel)%N ->
  bag_loop cfg run fuel k good fails so s <> None.
Proof.
move=> EN Rm; elim: fuel k good fails so s => [|fuel IH] k good fails so s Lm.
  by rewrite /= EN lez_nat -subn_eq0 -leqn0 Lm.
rewrite loopE EN lez_nat; case: leqP=> // L; case: (run k)=> // o.
rewrite Rm orbT; case: (argsort_eigs _ _)=> // -[so' p]; case: ifP=> // _; apply: IH.
by rewrite subnS -ltnS (leq_trans _ Lm) // prednK // subn_gt0.
Qed.
(** when every trial fails and bag_maxfail is not positive, it never ends *)
Lemma loop_forever fuel k good fails so s : good%:Z < bc_trials cfg -> bc_maxfail cfg <= 0 ->
  (forall i, run i = Ok (got i) /\ ke i = false) -> bag_loop cfg run fuel k good fails so s = None.
Proof.
move=> Lt Mf Al; elim: fuel k fails=> [|fuel IH] k fails; first by rewrite /= leNgt Lt.
rewrite loopE leNgt Lt /=; have [-> /=] := Al k; rewrite /ke /kept => ->.
by case: eqP=> [E|_]; [move: Mf; rewrite -E|exact: IH].
Qed.
(** every trial fails and bag_maxfail is positive: RuntimeError after that many trials *)
Lemma loop_fails mf k good fails so s fuel : good%:Z < bc_trials cfg -> bc_maxfail cfg = mf%:Z ->
  (fails < mf)%N -> (mf - fails <= fuel)%N ->
  (forall i, run i = Ok (got i) /\ ke i = false) -> bag_loop cfg run fuel k good fails so s = Some (Err RuntimeError).
Proof.
move=> Lt Mf Lf Lu Al; elim: fuel k fails Lf Lu=> [|fuel IH] k fails Lf Lu.
  by move: Lu; rewrite leqn0 subn_eq0 leqNgt Lf.
rewrite loopE leNgt Lt /=; have [-> /=] := Al k; rewrite /ke /kept => ->.
rewrite Mf eqz_nat; case: eqP=> // /eqP N1; apply: IH; first by rewrite ltn_neqAle N1.
by rewrite subnS -ltnS (leq_trans _ Lu) // prednK // subn_gt0.
Qed.
(** bag_maxfail = 0: the first kept trial raises *)
Lemma loop_zero fuel k good fails so s L : good%:Z < bc_trials cfg -> bc_maxfail cfg = 0 ->
  (forall i, (k <= i < k + L)%N -> run i = Ok (got i) /\ ke i = false) ->
  run (k + L)%N = Ok (got (k + L)%N) -> ke (k + L)%N -> argsort_eigs so (to_e (got (k + L)%N)) <> Err ValueError ->
  (L < fuel)%N -> bag_loop cfg run fuel k good fails so s = Some (Err RuntimeError).
Proof.
move=> Lt Mf; elim: fuel k fails L => [|fuel IH] k fails L // Al Rk Kk As Lu.
rewrite loopE leNgt Lt /=; case: L Al Rk Kk As Lu => [|L] Al Rk Kk As Lu.
  rewrite addn0 in Rk Kk As; rewrite Rk; move: Kk; rewrite /ke /kept => ->.
  case E : (argsort_eigs _ _)=> [[so' p]|e]; first by rewrite Mf.
  by move: E As; rewrite /argsort_eigs; case: (match so with EsAuto => _ | _ => _ end)=> // -[<-].
have [|-> /=] := Al k; first by rewrite leqnn /= -addSnnS leq_addr.
rewrite /ke /kept => ->; rewrite Mf /=; apply: (IH _ _ L); rewrite ?addSnnS //.
by move=> i /andP [L1 L2]; apply: Al; rewrite (ltnW L1).
Qed.
End Loop.

(** ** Mean and variance *)
Lemma varE (l : seq C) : l != [::] ->
  var l = (\sum_(a <- l) `|a| ^+ 2) / (size l)%:R - `|avg l| ^+ 2.
Proof.
move=> N0; have N1 : (size l)%:R != 0 :> C by rewrite pnatr_eq0 size_eq0.
set m := avg l; have Em : \sum_(a <- l) a = (size l)%:R * m by rewrite /m /avg mulrCA divff ?mulr1.
have S1 (a : C) : \sum_(i <- l) a = (size l)%:R * a.
  by rewrite big_const_seq count_predT iter_addr_0 mulr_natl.
have D a : `|a - m| ^+ 2 = `|a| ^+ 2 - a * m^* - m * a^* + `|m| ^+ 2.
  rewrite !normCK rmorphB mulrBl !mulrBr opprB; move: (a * a^*) (a * m^*) (m * a^*) (m * m^*)=> p q r s.
  by rewrite [s - r]addrC addrA.
rewrite /var /avg size_map big_map -/m (eq_bigr _ (fun a _ => D a)) !big_split /= S1 !sumrN.
rewrite -mulr_suml -mulr_sumr -rmorph_sum Em rmorphM rmorph_nat !normCK.
rewrite [m * (_ * _)]mulrCA -mulrA subrK mulrBl; congr (_ - _).
by rewrite mulrAC divff ?mul1r.
Qed.
Lemma var_ge0 (l : seq C) : 0 <= var l.
Proof.
rewrite /var /avg mulr_ge0 ?invr_ge0 ?ler0n // big_map sumr_ge0 // => a _.
by rewrite exprn_ge0.
Qed.
End Bag.
