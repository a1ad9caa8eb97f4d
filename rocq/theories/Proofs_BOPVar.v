(** * Proofs about the variable projection of Model_BOP.v *)
From mathcomp Require Import all_ssreflect all_fingroup all_algebra.
From Verif Require Import Py LinAlg Model_Operator Spec_Operator Model_BOP Spec_BOP Proofs_BOPEig.
Set Implicit Arguments. Unset Strict Implicit. Unset Printing Implicit Defensive.
Import Order.TTheory GRing.Theory Num.Theory.
Local Open Scope ring_scope.

Section Var.
Variable C : numClosedFieldType.
Variables (np : numpy C) (x : ext C) (o : vopts C) (con : constr C) (prox : option (prox_fun C)).
Variables (M IS : nat) (H : 'M[C]_(M, IS)) (t : 'rV[C]_M).
Notation err := (model_error np x H t).
Notation lm_loop := (lm_loop np x o con prox H t).
Notation step := (step np x o con prox H t).

Lemma rel_errorE r (al : 'rV[C]_r) B : rel_error np x H t al B = err (al, B). Proof. by []. Qed.

Lemma stepP r (al : 'rV[C]_r) B lam c : step al B lam = Ok c -> fitted np x prox H t c /\ constrained x con c.1.
Proof.
rewrite /step; case E : (push _ _ _)=> [a|//] /= [<-]; split=> //.
by exists (al + delta np x o H t al B lam).
Qed.

Lemma searchP n r (al : 'rV[C]_r) B lam c lam' c' :
  lm_search np x o con prox H t n al B lam c = Ok (lam', c') -> err c' < err (al, B) ->
  ~~ (err c < err (al, B)) -> fitted np x prox H t c' /\ constrained x con c'.1.
Proof.
elim: n lam c=> [|n IH] lam c /=; first by move=> [_ <-] ->.
case E : (step _ _ _)=> [d|//] /=; have := stepP E; rewrite !rel_errorE -surjective_pairing.
case: ifP=> [L D [_ <-] //|L D /IH K L' _]; apply: K=> //; by rewrite L.
Qed.

Lemma iterP r (al : 'rV[C]_r) B lam lam' c : lm_iter np x o con prox H t al B lam = Ok (Some (lam', c)) ->
  [/\ err c < err (al, B), fitted np x prox H t c & constrained x con c.1].
Proof.
rewrite /lm_iter; case E : (step _ _ _)=> [d|//] /=; have [F1 F2] := stepP E.
rewrite !rel_errorE -surjective_pairing; case: ifP=> [L [_ <-] //|L].
case S : (lm_search _ _ _ _ _ _ _ _ _ _ _)=> [[l c']|//] /=.
rewrite rel_errorE -surjective_pairing; case: ifP=> // L' [_ <-].
by have [|F3 F4] := searchP S L'; rewrite ?L.
Qed.

Lemma loopP tol n itr r (al : 'rV[C]_r) B lam v : tol = vo_tol o ->
  fitted np x prox H t (al, B) -> constrained x con al -> lm_loop n itr al B lam = Ok v ->
  exists l, [/\ descent np x con prox H t tol n ((al, B) :: l), last (al, B) l = (vp_alpha v, vp_B v),
    (vp_conv v -> l <> [::] /\ err (vp_alpha v, vp_B v) < tol) &
    (~~ vp_conv v -> l <> [::] -> ~~ (err (vp_alpha v, vp_B v) < tol))].
Proof.
move=> ->; elim: n itr al B lam=> [|n IH] itr al B lam F K.
  move=> [<-]; exists [::]; split=> //; split=> // c.
  by rewrite inE => /eqP ->.
rewrite /=; case E : (lm_iter _ _ _ _ _ _ _ _ _ _)=> [[[lam' [al' B']]|]|//] /=; last first.
  by move=> [<-]; exists [::]; split=> //; split=> // c; rewrite inE => /eqP ->.
have [L F' K'] := iterP E.
rewrite !rel_errorE.
have D1 : descent np x con prox H t (vo_tol o) n.+1 [:: (al, B); (al', B')].
  split=> //.
  - by move=> c; rewrite !inE => /orP [] /eqP ->.
  - by case=> [|[|k]].
  by case=> [|[|k]].
case: ifP=> [T [<-]|T]; first by exists [:: (al', B')]; split.
case: ifP=> [S [<-]|S]; first by exists [:: (al', B')]; split=> //=; rewrite T.
move=> /IH [] // l [[D2 D3 D4 D5] La C1 C2].
exists ((al', B') :: l); split=> //.
- split.
  + by rewrite /= ltnS; exact: D2.
  + move=> c; rewrite inE => /orP [/eqP -> //|]; exact: D3.
  + by case=> [|k] //= k1; exact: (D4 k).
  + case=> [|[|k]] // _; first by rewrite /= T.
    by move=> k1; exact: (D5 k.+1).
- by move=> /C1 [].
move=> V _; case: l La C2 {D2 D3 D4 D5 C1} => [|c l] La C2; last by apply: C2.
by move: La=> /= <-; rewrite T.
Qed.

Lemma varproP r (al0 : 'rV[C]_r) v : variable_projection np x o con prox H t al0 = Ok v ->
  exists al l, [/\ push x con al0 = Ok al,
    descent np x con prox H t (vo_tol o) (vo_maxiter o) ((al, compute_B np x prox H t al) :: l),
    last (al, compute_B np x prox H t al) l = (vp_alpha v, vp_B v),
    (vp_conv v -> l <> [::] /\ err (vp_alpha v, vp_B v) < vo_tol o) &
    (~~ vp_conv v -> l <> [::] -> ~~ (err (vp_alpha v, vp_B v) < vo_tol o))].
Proof.
rewrite /variable_projection; case E : (push _ _ _)=> [al|//] /= L.
have [||l [H1 H2 H3 H4]] := loopP (erefl (vo_tol o)) _ _ L => //; first by exists al0.
by exists al, l.
Qed.

(** the result is a member of the run *)
Lemma varpro_result r (al0 : 'rV[C]_r) v : variable_projection np x o con prox H t al0 = Ok v ->
  fitted np x prox H t (vp_alpha v, vp_B v) /\ constrained x con (vp_alpha v).
Proof.
move=> /varproP [al [l [_ D L _ _]]].
have : (vp_alpha v, vp_B v) \in (al, compute_B np x prox H t al) :: l by rewrite -L mem_last.
by move/(de_fit D).
Qed.

Lemma descent_last tol k r (c : 'rV[C]_r * 'M[C]_(r, IS)) l : descent np x con prox H t tol k (c :: l) ->
  err (last c l) <= err c ?= iff (l == [::]).
Proof.
move=> D; have := de_dec D; elim: l c {D}=> [|d l IH] c Hd; first by rewrite eqxx; apply/leif_refl.
have D0 : err d < err c by have := Hd 0%N; apply.
have [|L _] := IH d; first by move=> j Hj; exact: (Hd j.+1).
have LL : err (last c (d :: l)) < err c by apply: le_lt_trans L D0.
by split; [exact: ltW | rewrite lt_eqF].
Qed.

(** constraints other than conjugate pairs never fail, so neither does the projection *)
Lemma push_total r (e : 'rV[C]_r) : (if con is ConSet s then ~~ c_conj s else true) -> exists e', push x con e = Ok e'.
Proof. by case: con=> [f|s] /=; [exists (f r e) | case: (c_conj s)=> //= _; eexists]. Qed.

(** no improvement: the flag stays false *)
Lemma loop_stuck n itr r (al : 'rV[C]_r) B lam v : (forall c : 'rV[C]_r * 'M[C]_(r, IS), ~~ (err c < err (al, B))) ->
  lm_loop n itr al B lam = Ok v -> v = VpOut al B false.
Proof.
move=> N; case: n=> [|n] /=; first by move=> [].
case E : (lm_iter _ _ _ _ _ _ _ _ _ _)=> [[[lam' [al' B']]|]|//] /=; last by move=> [].
by have [L _ _] := iterP E; have := N (al', B'); rewrite L.
Qed.
End Var.
