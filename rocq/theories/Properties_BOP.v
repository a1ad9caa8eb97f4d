(** * C40, C41: eigenvalue constraints and variable projection of BOPDMD *)
From Coq Require Import QArith.
From mathcomp Require Import all_ssreflect all_fingroup all_algebra all_field.
From Verif Require Import Py LinAlg Model_Operator Spec_Operator Proofs_Operator Ideal Model_BOP Spec_BOP.
From Verif Require Import Proofs_BOPEig Proofs_BOPVar Proofs_BOPJac Proofs_BOPBag Proofs_BOP.
From Verif Require Model_Utils.
Set Implicit Arguments. Unset Strict Implicit. Unset Printing Implicit Defensive.
Import Order.TTheory GRing.Theory Num.Theory.
Local Open Scope ring_scope.

Section Main.
Variable C : numClosedFieldType.
Variables (np : numpy C) (x : ext C).

(** ** C40: the constructor *)
(** the constraint an argument stands for, when it is a legal one *)
Definition legal (a : constr_arg C) (c : constr C) : Prop :=
  match a with
  | CaNone => c = ConSet C (CSet false false false false)
  | CaFun DSameShape f => c = ConFun f
  | CaSet s => [/\ ~~ c_other s, ~~ (c_stable s && c_imag s) & c = ConSet C s]
  | _ => False
  end.

Theorem C40_constructor n ints dict con cfg rk basis alpha :
  (forall d : bop C n, bop_init ints dict con cfg rk basis alpha = Ok d <->
     ints /\ dict /\ exists2 c, legal con c & d = Bop (cfg c) rk basis alpha None None None) /\
  (forall e, @bop_init C n ints dict con cfg rk basis alpha = Err e ->
     e = if [&& ints, dict & if con is CaOther then false else true] then ValueError else TypeError).
Proof.
rewrite /bop_init; case: ints; case: dict; try by split=> [d|e [<-]] //; split=> // -[? [? []]].
case: con=> [|[] f|[st im cj ot]|] /=; split=> [d|e].
all: try (by move=> []; rewrite ?eqxx); try (by split=> // -[_ [_ []]]).
- by split=> [[<-]|[_ [_ [c -> ->]]]] //; do 2!split=> //; eexists.
- by split=> [[<-]|[_ [_ [c -> ->]]]] //; do 2!split=> //; eexists.
- case: ifP=> [/orP H|/negbT]; first by split=> // -[_ [_ [c [/= /negbTE E1 /negbTE E2 _]]]]; rewrite E1 E2 in H; case: H.
  rewrite negb_or=> /andP [H1 H2]; split=> [[<-]|[_ [_ [c [_ _ ->] ->]]]] //.
  by do 2!split=> //; eexists; first by split.
by case: ifP=> // _ [<-].
Qed.

(** ** C40: 'stable' and 'imag' *)
Theorem C40_stable (s : cset) r (e e' : 'rV[C]_r) : c_stable s -> c_conj s = false -> push x (ConSet C s) e = Ok e' ->
  forall j, [/\ 'Re (e' 0 j) <= 0, 'Im (e' 0 j) = 'Im (e 0 j), ('Re (e 0 j) <= 0 -> e' 0 j = e 0 j) &
                (0 < 'Re (e 0 j) -> 'Re (e' 0 j) = 0)].
Proof.
move=> Hs Hc; rewrite /= Hs Hc => -[<-] j; rewrite stable_le0 stable_im stable_re; split=> //.
- by move=> L; rewrite stableE le_gtF.
by move=> ->.
Qed.

Theorem C40_imag (s : cset) r (e e' : 'rV[C]_r) : c_imag s -> c_stable s = false -> c_conj s = false -> push x (ConSet C s) e = Ok e' ->
  forall j, 'Re (e' 0 j) = 0 /\ 'Im (e' 0 j) = 'Im (e 0 j).
Proof. by move=> Hi Hs Hc; rewrite /= Hs Hi Hc => -[<-] j; rewrite imag_re imag_im. Qed.

Theorem C40_none r (e : 'rV[C]_r) : push x (ConSet C (CSet false false false false)) e = Ok e.
Proof. by []. Qed.

(** combined with pairing: pair first, then 'stable' or 'imag' entry by entry *)
Theorem C40_combined (s : cset) r (e e' : 'rV[C]_r) : ~~ (c_stable s && c_imag s) -> c_conj s ->
  push x (ConSet C s) e = Ok e' <->
  exists2 e1, push x (ConSet C (CSet false false true false)) e = Ok e1 &
    push x (ConSet C (CSet (c_stable s) (c_imag s) false false)) e1 = Ok e'.
Proof.
move=> _ Hc; rewrite /= Hc; case: (conj_pairs x e)=> [e1|er] /=; last by split=> // -[].
by split=> [[<-]|[e2 [<-]]] //; exists e1.
Qed.

(** ** C40: 'conjugate_pairs' *)
Theorem C40_conj (P : pop_ok x) r (e e' : 'rV[C]_r) : push x (ConSet C (CSet false false true false)) e = Ok e' ->
  exists s, pairing e e' s.
Proof. by rewrite /=; case E : (conj_pairs x e)=> [e1|//] [<-]; exact: conj_pairsP E. Qed.

Theorem C40_conj_error r (s : cset) (e : 'rV[C]_r) er : push x (ConSet C s) e = Err er -> er = ValueError /\ c_conj s.
Proof.
rewrite /=; case: (c_conj s)=> //; case E : (conj_pairs x e)=> [e1|e1] //= -[<-]; split=> //.
move: E; rewrite /conj_pairs.
have L fuel (un : seq 'I_r) acc : pair_loop x fuel e un acc = Err e1 -> e1 = ValueError.
  elim: fuel un acc=> [|fuel IH] [|i0 un] acc //; rewrite pair_loopS; cbv zeta.
  by case: (argmin _)=> [i2|[]] //; case: ifP=> [_ /IH|_ []].
case: ifP=> _; last exact: L.
by case: (argmin _)=> [i|[]] //; exact: L.
Qed.

(** paired eigenvalues with imaginary parts of opposite sign: the outcome is closed under conjugation, also
    after 'stable' or 'imag' *)
Theorem C40_conj_closed (P : pop_ok x) (s : cset) r (e e' : 'rV[C]_r) : c_conj s -> push x (ConSet C s) e = Ok e' ->
  exists e1 p, pairing e e1 p /\
    ((forall i, p i != i -> Num.sg ('Im (e 0 (p i))) = - Num.sg ('Im (e 0 i))) ->
     (forall i, e' 0 (p i) = (e' 0 i)^*) /\ conj_closed e').
Proof.
move=> Hc; rewrite /= Hc; case E : (conj_pairs x e)=> [e1|//] [<-].
have [p Hp] := conj_pairsP P E; exists e1, p; split=> // H; have H1 := pairing_conj Hp H.
have H2 i : (if c_stable s then make_stable e1 else if c_imag s then make_imag e1 else e1) 0 (p i) =
   ((if c_stable s then make_stable e1 else if c_imag s then make_imag e1 else e1) 0 i)^*.
  by case: ifP=> _; [exact: stable_conj|case: ifP=> _; [exact: imag_conj|]].
by split=> // i; exists (p i).
Qed.

(** whatever the order of set.pop, a spectrum of distinct conjugate pairs with at most one real eigenvalue is
    returned unchanged *)
Theorem C40_conj_exact (P : pop_ok x) r (e : 'rV[C]_r) : clean_spectrum e ->
  push x (ConSet C (CSet false false true false)) e = Ok e.
Proof. by move=> H; rewrite /= (conj_pairs_exact P H). Qed.

(** the memory handed out by np.empty never shows *)
Theorem C40_conj_junk (y : ext C) (s : cset) r (e : 'rV[C]_r) : x_pop x = x_pop y -> pop_ok x ->
  push x (ConSet C s) e = push y (ConSet C s) e.
Proof. by move=> E P; rewrite /= (conj_pairs_junk e E P). Qed.

(** Refuted: "conjugate_pairs accepts every spectrum closed under conjugation": two or more distinct real
    eigenvalues are refused *)
Theorem C40_real_spectrum_refuted (P : pop_ok x) r (e : 'rV[C]_r) : (1 < r)%N -> injective (fun i => e 0 i) ->
  (forall i, e 0 i \is Num.real) ->
  conj_closed e /\ push x (ConSet C (CSet false false true false)) e = Err ValueError.
Proof.
move=> H1 H2 H3; split; last by rewrite /= (conj_pairs_real P).
by move=> i; exists i; rewrite conj_Creal.
Qed.

(** ** C40: the eigenvalues of a fit *)
Definition eigs_of n (d : bop C n) : option {r & 'rV[C]_r} :=
  if b_op d is Some (Some (existT q (existT r u))) then Some (existT _ r (bo_eigs u)) else None.

Lemma trial_constrained (cfg : bop_cfg C) o n q (P : 'M[C]_(n, q)) M (H : 'M[C]_(M, data_cols cfg n q)) t r (al0 : 'rV[C]_r) u :
  single_trial np x o P H t al0 = Ok u -> constrained x (bc_con cfg) (to_e u).
Proof. by move=> /trialP [v /varpro_result [_ +] [-> _ _ _ _]]. Qed.

Theorem C40_fit fuel n (d d' : bop C n) m (X : 'M[C]_(n, m)) flat k (t : 'rV[C]_k) :
  bc_trials (b_cfg d) <= 0 -> bop_fit np x fuel d X flat t = Some (d', Ok tt) ->
  exists r (e : 'rV[C]_r), eigs_of d' = Some (existT _ r e) /\ exists e0, push x (bc_con (b_cfg d)) e0 = Ok e.
Proof.
move=> N /fitP [_ [e [q [P [r [al [o [u [_ _ _ EC ->]]]]]]]]].
have [w Ew Eu] := operator1 N EC; exists r, (bo_eigs u); split=> //.
by rewrite Eu /=; exact: trial_constrained Ew.
Qed.

(** with bagging the eigenvalues are means, so the half-plane and the axis are kept *)
Lemma operator_re (R : C -> Prop) fuel (cfg : bop_cfg C) o n q (P : 'M[C]_(n, q)) M (H : 'M[C]_(M, data_cols cfg n q)) t r (al : 'rV[C]_r) u :
  (forall a b, R a -> R b -> R (a + b)) -> R 0 -> (forall a c, 0 <= c -> R a -> R (a / c)) ->
  (forall e j, constrained x (bc_con cfg) (e : 'rV[C]_r) -> R (e 0 j)) ->
  compute_operator np x fuel o P H t al = Some (Ok u) -> forall j, R (bo_eigs u 0 j).
Proof.
move=> RD R0 RV Hc; rewrite /compute_operator; case E : (single_trial _ _ _ _ _ _ _)=> [w|//].
case: ifP=> N; first by move=> [<-] j; apply: Hc; exact: trial_constrained E.
case L : (bag_loop _ _ _ _ _ _ _ _)=> [[s|]|] // [<-] j; have [K [g [_ GR]]] := loop_okP L.
rewrite /= mxE; apply: RV; first by rewrite ler0z ltW // ltNge N.
rewrite (gr_e GR) /= add0r mxE big_seq; elim/big_rec: _ => // i a Hi Ra; apply: RD=> //; apply: Hc.
have Ri := gr_ok GR (i := i); have : (0 <= i < 0 + K)%N by move: Hi; rewrite mem_filter mem_iota => /andP [].
move/Ri; rewrite /bag_trial; case: (bag _ _ _ _)=> //= l Et; exact: trial_constrained Et.
Qed.

Theorem C40_fit_stable fuel n (d d' : bop C n) m (X : 'M[C]_(n, m)) flat k (t : 'rV[C]_k) s :
  bc_con (b_cfg d) = ConSet C s -> c_stable s -> bop_fit np x fuel d X flat t = Some (d', Ok tt) ->
  exists r (e : 'rV[C]_r), eigs_of d' = Some (existT _ r e) /\ forall j, 'Re (e 0 j) <= 0.
Proof.
move=> Ec Hs /fitP [_ [e [q [P [r [al [o [u [_ _ _ EC ->]]]]]]]]].
exists r, (bo_eigs u); split=> //; apply: (operator_re (R := fun z => 'Re z <= 0)) EC.
- by move=> a b Ha Hb; rewrite raddfD /=; have := ler_add Ha Hb; rewrite addr0.
- by rewrite raddf0.
- move=> a c Hp Ha; rewrite ReMr ?rpredV ?ger0_real //; apply: mulr_le0_ge0=> //; by rewrite invr_ge0.
move=> e0 j [a0]; rewrite Ec /= Hs; case: (if c_conj s then _ else _)=> [a1|] //= [<-]; exact: stable_le0.
Qed.

Theorem C40_fit_imag fuel n (d d' : bop C n) m (X : 'M[C]_(n, m)) flat k (t : 'rV[C]_k) s :
  bc_con (b_cfg d) = ConSet C s -> c_imag s -> c_stable s = false -> bop_fit np x fuel d X flat t = Some (d', Ok tt) ->
  exists r (e : 'rV[C]_r), eigs_of d' = Some (existT _ r e) /\ forall j, 'Re (e 0 j) = 0.
Proof.
move=> Ec Hi Hs /fitP [_ [e [q [P [r [al [o [u [_ _ _ EC ->]]]]]]]]].
exists r, (bo_eigs u); split=> //; apply: (operator_re (R := fun z => 'Re z = 0)) EC.
- by move=> a b Ha Hb; rewrite raddfD /= Ha Hb addr0.
- by rewrite raddf0.
- by move=> a c Hp Ha; rewrite ReMr ?rpredV ?ger0_real // Ha mul0r.
move=> e0 j [a0]; rewrite Ec /= Hs Hi; case: (if c_conj s then _ else _)=> [a1|] //= [<-]; exact: imag_re.
Qed.

(** the stored initial eigenvalues: 'stable' alone rewrites them in place, nothing else does *)
Theorem C40_init_alpha fuel n (d d' : bop C n) m (X : 'M[C]_(n, m)) flat k (t : 'rV[C]_k) r (al : 'rV[C]_r) :
  b_alpha d = Some (existT _ r al) -> bop_fit np x fuel d X flat t = Some (d', Ok tt) ->
  exists al' : 'rV[C]_r, b_alpha d' = Some (existT _ r al') /\
    (if bc_con (b_cfg d) is ConSet s then
       if c_stable s && ~~ c_conj s
       then forall j, al' 0 j = if 'Re (al 0 j) <= 0 then al 0 j else 'i * 'Im (al 0 j)
       else al' = al
     else al' = al).
Proof.
move=> Ea /fitP [_ [e [q [P [r' [al1 [o [u [_ + _ _ ->]]]]]]]]]; rewrite /get_alpha /= Ea; case: ifP=> // _ [E].
subst r' => H0; rewrite -(Eqdep_dec.inj_pair2_eq_dec _ PeanoNat.Nat.eq_dec _ _ _ _ H0).
exists (push_in_place (bc_con (b_cfg d)) al); split=> //; case: (bc_con _)=> // s /=.
case: (c_stable s && ~~ c_conj s)=> // j.
by rewrite stableE real_ltNge ?rpred0 ?Creal_Re // if_neg.
Qed.

(** ** C41 *)
(** the run: the iterates kept are fits for constrained eigenvalues, with strictly decreasing errors, at most
    maxiter steps; the outcome is the last of them.  "Converged" exactly when it was reached by a step and its
    error is below the tolerance. *)
Theorem C41_descent (o : vopts C) con prox M IS (H : 'M[C]_(M, IS)) (t : 'rV[C]_M) r (al0 : 'rV[C]_r) v :
  variable_projection np x o con prox H t al0 = Ok v ->
  exists al l, let c := (al, compute_B np x prox H t al) in
    [/\ push x con al0 = Ok al, descent np x con prox H t (vo_tol o) (vo_maxiter o) (c :: l),
        last c l = (vp_alpha v, vp_B v),
        model_error np x H t (vp_alpha v, vp_B v) <= model_error np x H t c ?= iff (l == [::]) &
        vp_conv v = (l != [::]) && (model_error np x H t (vp_alpha v, vp_B v) < vo_tol o)].
Proof.
move=> /varproP [al [l [H1 H2 H3 H4 H5]]]; exists al, l; split=> //; first by rewrite -H3; exact: descent_last H2.
case: (boolP (vp_conv v)) => [/H4 [N ->]|N]; first by rewrite andbT; apply/esym/eqP.
by apply/esym/negP=> /andP [/eqP /(H5 N) /negP L /L].
Qed.

(** the returned coefficients are the best ones for the returned eigenvalues *)
Theorem C41_coefficients (o : vopts C) con M IS (H : 'M[C]_(M, IS)) (t : 'rV[C]_M) r (al0 : 'rV[C]_r) v :
  (forall a b (A : 'M[C]_(a, b)) y, lstsq_ok np A y) ->
  variable_projection np x o con None H t al0 = Ok v ->
  forall B', let F := \matrix_(i, j) x_exp x (t 0 i * vp_alpha v 0 j) in
    frob2 (H - F *m vp_B v) <= frob2 (H - F *m B').
Proof.
move=> Ls /varpro_result [E _] B' /=; rewrite /fitted /= in E; rewrite E /compute_B.
by apply: lstsq_optimal; apply: lstsq_mxP=> j; exact: Ls.
Qed.

(** the only exception is the ValueError of pairing *)
Lemma step_err (o : vopts C) con prox M IS (H : 'M[C]_(M, IS)) (t : 'rV[C]_M) r (al : 'rV[C]_r) B lam er :
  step np x o con prox H t al B lam = Err er -> exists a : 'rV[C]_r, push x con a = Err er.
Proof. by rewrite /step; case E : (push _ _ _)=> [|e] //= [<-]; eexists; exact: E. Qed.
Theorem C41_errors (o : vopts C) con prox M IS (H : 'M[C]_(M, IS)) (t : 'rV[C]_M) r (al0 : 'rV[C]_r) er :
  variable_projection np x o con prox H t al0 = Err er ->
  er = ValueError /\ exists2 s, con = ConSet C s & c_conj s.
Proof.
move=> E; have [a] : exists a : 'rV[C]_r, push x con a = Err er.
  move: E; rewrite /variable_projection; case Ep : (push _ _ _)=> [al|e1] /=; last by move=> [<-]; exists al0.
  have W k itr (a : 'rV[C]_r) B lam : lm_loop np x o con prox H t k itr a B lam = Err er ->
    exists a : 'rV[C]_r, push x con a = Err er; last exact: W.
  elim: k itr a B lam {Ep al} => [|n IH] itr al B lam //=.
  have S0 k c l : lm_search np x o con prox H t k al B l c = Err er -> exists a : 'rV[C]_r, push x con a = Err er.
    elim: k c l=> [|k IHk] c l //=; case Es : (step _ _ _ _ _ _ _ _ _ _)=> [c'|e1] /=; last by move=> [<-]; exact: step_err Es.
    by case: ifP=> // _; exact: IHk.
  rewrite /lm_iter; case Es : (step _ _ _ _ _ _ _ _ _ _)=> [c|e1] /=; last by move=> [<-]; exact: step_err Es.
  case: ifP=> _ /=.
    by case: c {Es} => al' B'; case: ifP=> // _; case: ifP=> // _; exact: IH.
  case El : (lm_search _ _ _ _ _ _ _ _ _ _ _ _)=> [[l' c']|e1] /=; last by move=> [E1]; rewrite E1 in El; exact: S0 El.
  by case: ifP=> //= _; case: c' {El} => al' B'; case: ifP=> // _; case: ifP=> // _; exact: IH.
by case: con {E} => [f|s] // /C40_conj_error [-> Hc]; split=> //; exists s.
Qed.

(** the step solves the damped normal equations of the linearised problem *)
Theorem C41_step (o : vopts C) M IS (H : 'M[C]_(M, IS)) (t : 'rV[C]_M) r (al : 'rV[C]_r) B lam :
  let J := djac np x o H t al B in
  qr_ok x J -> (forall R y, lstsq_ok np (R : 'M[C]_(r + r, r)) y) ->
  (adj J *m J + `|lam| ^+ 2 *: diag_mx (\row_k `|scales np x o H t al B 0 k| ^+ 2)) *m (delta np x o H t al B lam)^T =
  adj J *m ravelF (H - (\matrix_(i, j) x_exp x (t 0 i * al 0 j)) *m B).
Proof. exact: deltaP. Qed.

(** the Jacobian used: with F the exponentials, G a pseudo-inverse of F and dF the derivative of F in the k-th
    eigenvalue, column k is (1 - F G) dF B, plus (dF G)^* (H - F B) in the full version.  No singular value of F
    lies in the band cut by the threshold of the code. *)
Theorem C41_jacobian (o : vopts C) M IS (H : 'M[C]_(M, IS)) (t : 'rV[C]_M) r (al : 'rV[C]_r) B (G : 'M[C]_(r, M)) (k : 'I_r) :
  let F := \matrix_(i, j) x_exp x (t 0 i * al 0 j) in
  let dF : 'M[C]_(M, r) := \matrix_(i, j) (if j == k then t 0 i * x_exp x (t 0 i * al 0 k) else 0) in
  svd_ok np F -> no_cut np x t al -> is_pinv F G ->
  col k (djac np x o H t al B) = ravelF ((1%:M - F *m G) *m dF *m B +
    (if vo_fulljac o then adj (dF *m G) *m (H - F *m B) else 0)).
Proof.
move=> F dF HS N HG; have -> : dF = exp_deriv x t al k.
  by apply/matrixP=> i j; rewrite !mxE [al 0 k * _]mulrC.
have E := djac_colE o H B k HS N HG.
apply/colP=> i; rewrite [LHS]mxE [LHS]mxE E adjM; congr (ravelF _ i 0).
Qed.

(** Refuted: "converged is False only when the tolerance was not met": a start that fits exactly is returned
    with the flag down, whatever the tolerance *)
Theorem C41_converged_refuted (o : vopts C) M IS (t : 'rV[C]_M) r (al : 'rV[C]_r) (B : 'M[C]_(r, IS)) :
  (forall a b (A : 'M[C]_(a, b)), norm_ok np A) -> (forall a b (A : 'M[C]_(a, b)) y, lstsq_ok np A y) ->
  let F := \matrix_(i, j) x_exp x (t 0 i * al 0 j) in
  let H := F *m B in
  exists B', variable_projection np x o (ConSet C (CSet false false false false)) None H t al = Ok (VpOut al B' false) /\
    F *m B' = H /\ model_error np x H t (al, B') = 0.
Proof.
move=> No Ls F H.
have LS := lstsq_mxP (fun j => Ls _ _ F (col j H)); have EB := lstsq_range LS (erefl H).
have EB' : H = exp_mx x t al *m compute_B np x None H t al by rewrite -[LHS]EB.
case E : (variable_projection _ _ _ _ _ _ _ _)=> [v|er]; last by have [_ [s [<-]]] := C41_errors E.
have Ev := start_exact No (C40_none al) EB' E.
exists (compute_B np x None H t al); rewrite Ev; split=> //; split=> //.
by rewrite /model_error /= -[X in _ - X]/(F *m _) EB subrr (norm_zero No) mul0r.
Qed.
End Main.

(** ** Refutations of pairing on two eigenvalues *)
Section Two.
Variable C : numClosedFieldType.
Definition two (a b : C) : 'rV[C]_2 := \row_j (if j == 0 then a else b).
Lemma two0 a b : two a b 0 0 = a. Proof. by rewrite mxE. Qed.
Lemma two1 a b : two a b 0 1 = b. Proof. by rewrite mxE. Qed.
Definition pairs_only : constr C := ConSet C (CSet false false true false).

Lemma enum2 : enum 'I_2 = [:: 0; 1] :> seq 'I_2.
Proof. by apply: (inj_map val_inj); rewrite val_enum_ord. Qed.
Lemma cases2 (P : 'I_2 -> Prop) : P 0 -> P 1 -> forall i, P i.
Proof.
move=> H0 H1 i; have [->|->] // : i = 0 \/ i = 1.
by case: i=> [[|[|//]] L]; [left|right]; exact: val_inj.
Qed.

Lemma push_two ex (e : 'rV[C]_2) :
  push (ideal_ext ex) pairs_only e =
  (match argmin (fun j => `|e 0 j - (e 0 0)^*|) with
   | Some i2 => if i2 \in [:: 1] then
      Ok (set_entry (set_entry 0 0 (cand (e 0 0) (e 0 i2))) i2 (cand (e 0 i2) (e 0 0)))
      else Err ValueError
   | None => Err ValueError
   end).
Proof.
have -> : push (ideal_ext ex) pairs_only e = conj_pairs (ideal_ext ex) e by rewrite /push /=; case: (conj_pairs _ _).
have -> : conj_pairs (ideal_ext ex) e = pair_loop (ideal_ext ex) 2 e [:: 0; 1] 0 by rewrite -enum2.
rewrite pair_loopS; have -> : x_pop (ideal_ext ex) 0 [:: 0; 1] = 0 :> 'I_2 by [].
cbv zeta; case: (argmin _)=> // i2.
have -> : rem 0 [:: 0; 1] = [:: 1] :> seq 'I_2 by [].
case: ifP=> // ; rewrite inE => /eqP ->.
by have -> : rem 1 [:: 1] = [::] :> seq 'I_2 by [].
Qed.
Lemma pair_two ex a b : `|b - a^*| < `|a - a^*| ->
  push (ideal_ext ex) pairs_only (two a b) = Ok (two (cand a b) (cand b a)).
Proof.
move=> L; rewrite push_two two0.
have -> : argmin (fun j => `|two a b 0 j - a^*|) = Some 1.
  by apply: argmin_uniq; elim/cases2=> // _; rewrite two0 two1.
rewrite inE eqxx two1; congr Ok; apply/rowP; elim/cases2.
  by rewrite !set_entryE two0.
by rewrite !set_entryE two1.
Qed.
Lemma reject_two ex a b : `|a - a^*| < `|b - a^*| ->
  push (ideal_ext ex) pairs_only (two a b) = Err ValueError.
Proof.
move=> L; rewrite push_two two0.
have -> // : argmin (fun j => `|two a b 0 j - a^*|) = Some 0.
by apply: argmin_uniq; elim/cases2=> // _; rewrite two0 two1.
Qed.
Lemma Re_i : 'Re ('i : C) = 0. Proof. by have := @Re_rect C 0 1; rewrite add0r mulr1; apply; rewrite ?rpred0 ?rpred1. Qed.
Lemma Im_i : 'Im ('i : C) = 1. Proof. by have := @Im_rect C 0 1; rewrite add0r mulr1; apply; rewrite ?rpred0 ?rpred1. Qed.

(** Refuted: "the outcome of conjugate_pairs is closed under conjugation": i and i/2 are accepted, and both
    become 0.75 i *)
Theorem C40_same_sign_refuted ex : exists e' : 'rV[C]_2,
  push (ideal_ext ex) pairs_only (two 'i ('i / 2%:R)) = Ok e' /\ (forall j, e' 0 j = 3%:R / 4%:R * 'i) /\ ~ conj_closed e'.
Proof.
have N2 : (2%:R : C) != 0 by rewrite pnatr_eq0.
have R2 : 'Re ('i / 2%:R : C) = 0 by rewrite ReMr ?rpredV ?rpred_nat // Re_i mul0r.
have I2 : 'Im ('i / 2%:R : C) = 2%:R^-1 by rewrite ImMr ?rpredV ?rpred_nat // Im_i mul1r.
have P2 : 0 < (2%:R^-1 : C) by rewrite invr_gt0 ltr0n.
have E34 : (1 + 2%:R^-1) / 2%:R = 3%:R / 4%:R :> C.
  by rewrite -[2%:R^-1 in X in X / _]mul1r -{1}(divff N2) -mulrDl -(natrD _ 2 1) -mulrA -invrM ?unitfE // -natrM.
have C1 : cand 'i ('i / 2%:R) = 3%:R / 4%:R * 'i :> C.
  rewrite /cand /pair_re /pair_im Re_i R2 Im_i I2 addr0 mul0r add0r normr1 (gtr0_norm P2) sgr1 mulr1 E34.
  by rewrite mulrC.
have C2 : cand ('i / 2%:R) 'i = 3%:R / 4%:R * 'i :> C.
  rewrite /cand /pair_re /pair_im Re_i R2 Im_i I2 addr0 mul0r add0r normr1 (gtr0_norm P2) gtr0_sg // mulr1 addrC E34.
  by rewrite mulrC.
exists (two (3%:R / 4%:R * 'i) (3%:R / 4%:R * 'i)); split; [|split].
- rewrite pair_two ?C1 ?C2 // conjCi !opprK.
  have -> : 'i / 2%:R + 'i = 'i * (2%:R^-1 + 1) :> C by rewrite mulrDr mulr1.
  have -> : 'i + 'i = 'i * (1 + 1) :> C by rewrite mulrDr mulr1.
  rewrite !normrM normCi !mul1r !ger0_norm ?addr_ge0 ?(ltW P2) ?ler01 //.
  by rewrite ltr_add2r invf_lt1 ?ltr0n // ltr1n.
- by elim/cases2; rewrite mxE.
have Q : (3%:R / 4%:R : C) \is Num.real by rewrite rpredM ?rpredV ?rpred_nat.
have N : (3%:R / 4%:R : C) != 0 by rewrite mulf_neq0 ?invr_eq0 ?pnatr_eq0.
have V j : two (3%:R / 4%:R * 'i) (3%:R / 4%:R * 'i) 0 j = 3%:R / 4%:R * 'i by rewrite mxE; case: ifP.
move=> /(_ 0) [j]; rewrite !V rmorphM conjCi (conj_Creal Q) => /(mulfI N) /eqP; rewrite -addr_eq0.
by rewrite -mulr2n mulrn_eq0 /= (negbTE (neq0Ci C)).
Qed.

(** Refuted: "pairing depends on the set of eigenvalues, not on their order": {1 + i, 1} is accepted in this
    order (with an outcome that is not closed under conjugation) and refused in the other *)
Theorem C40_order_refuted ex :
  push (ideal_ext ex) pairs_only (two (1 + 'i) 1) = Ok (two (1 + 'i / 2%:R) 1) /\
  push (ideal_ext ex) pairs_only (two 1 (1 + 'i)) = Err ValueError.
Proof.
have R1 : 'Re (1 + 'i : C) = 1 by rewrite raddfD /= Re_i addr0; apply/Creal_ReP; rewrite rpred1.
have I1 : 'Im (1 + 'i : C) = 1 by rewrite raddfD /= Im_i (Creal_ImP _ _) ?rpred1 // add0r.
have R0 : 'Re (1 : C) = 1 by apply/Creal_ReP; rewrite rpred1.
have I0 : 'Im (1 : C) = 0 by apply/Creal_ImP; rewrite rpred1.
have H1 : (1 + 1) / 2%:R = 1 :> C by rewrite -(natrD _ 1 1) divff // pnatr_eq0.
have D1 : (1 : C) - (1 + 'i)^* = 'i by rewrite rmorphD rmorph1 conjCi opprD opprK addrA subrr add0r.
have D2 : (1 + 'i : C) - (1 + 'i)^* = 'i *+ 2.
  by rewrite rmorphD rmorph1 conjCi opprD opprK addrACA subrr add0r mulr2n.
split; last first.
  by rewrite reject_two // conjC1 subrr normr0 addrAC subrr add0r normCi ltr01.
rewrite pair_two; last by rewrite D1 D2 normrMn normCi ltr1n.
congr (Ok (two _ _)).
  by rewrite /cand /pair_re /pair_im R1 I1 R0 I0 normr0 normr1 addr0 sgr1 mulr1 H1 mul1r.
by rewrite /cand /pair_re /pair_im R1 I1 R0 I0 sgr0 !mulr0 addr0 H1.
Qed.

(** ** Concrete cases *)
Example C40_case_exact ex : push (ideal_ext ex) pairs_only (two (2%:R + 'i) (2%:R - 'i)) = Ok (two (2%:R + 'i) (2%:R - 'i)).
Proof.
have [P _ _] := ideal_ext_ok ex; apply: C40_conj_exact=> //.
have R0 : 'Re (2%:R : C) = 2%:R by apply/Creal_ReP; rewrite rpred_nat.
have I0 : 'Im (2%:R : C) = 0 by apply/Creal_ImP; rewrite rpred_nat.
have NI : (2%:R + 'i : C) != 2%:R - 'i.
  by rewrite (inj_eq (addrI _)) -addr_eq0 -mulr2n mulrn_eq0 /= (negbTE (neq0Ci C)).
have CI : (2%:R + 'i : C)^* = 2%:R - 'i by rewrite rmorphD rmorph_nat conjCi.
split.
- by do 2!elim/cases2; rewrite ?two0 ?two1 // => /eqP; rewrite ?(negbTE NI) // eq_sym (negbTE NI).
- by elim/cases2; [exists 1|exists 0]; rewrite two0 two1 ?CI // -CI conjCK.
rewrite eq_card0 //; elim/cases2; rewrite !inE ?two0 ?two1.
  by apply/negbTE; rewrite CrealE CI eq_sym.
by apply/negbTE; rewrite CrealE -CI conjCK CI.
Qed.
End Two.

Section Case.
Let K := algCnumClosedField.
Let opts : vopts K := VOpts 1 52 2%:R true 30 (10%:R ^+ 6)^-1 (10%:R ^+ 12)^-1 true.
(** a run of the projection on three samples of two channels *)
Example C41_case : let H : 'M[K]_(3, 2) := \matrix_(i, j) (if i == j :> nat then 'i else 2%:R) in
  let t : 'rV[K]_3 := \row_j (nat_of_ord j)%:R in
  exists v, variable_projection (ideal K) (ideal_ext (fun z => 1 + z)) opts (ConSet K (CSet true false false false)) None H t (const_mx 1 : 'rV[K]_1) = Ok v /\
   'Re (vp_alpha v 0 0) <= 0.
Proof.
move=> H t; case E : (variable_projection _ _ _ _ _ _ _ _)=> [v|er].
  exists v; split=> //; have [_ [a0 [<-]]] := varpro_result E; exact: stable_le0.
by have [_ [s [<-]]] := C41_errors E.
Qed.
Example C41_case_step : let H : 'M[K]_(3, 2) := \matrix_(i, j) (if i == j :> nat then 'i else 2%:R) in
  let t : 'rV[K]_3 := \row_j (nat_of_ord j)%:R in
  let J := djac (ideal K) (ideal_ext (fun z => 1 + z)) opts H t (const_mx 'i : 'rV[K]_2) (const_mx 1) in
  qr_ok (ideal_ext (fun z => 1 + z)) J /\ (forall R y, lstsq_ok (ideal K) (R : 'M[K]_(2 + 2, 2)) y).
Proof.
move=> H t J; have [_ _ Q] := ideal_ext_ok (fun z : K => 1 + z); have [_ [_ [L _]]] := ideal_contracts K.
by split; [exact: Q|move=> R y; exact: L].
Qed.
Example C41_case_exact := @C41_converged_refuted K (ideal K) (ideal_ext (fun z => 1 + z)) opts 3 2 (\row_j (nat_of_ord j)%:R) 2
  (\row_j (nat_of_ord j)%:R) (const_mx 'i).
End Case.

Print Assumptions C40_constructor.
Print Assumptions C40_stable.
Print Assumptions C40_imag.
Print Assumptions C40_none.
Print Assumptions C40_combined.
Print Assumptions C40_conj.
Print Assumptions C40_conj_error.
Print Assumptions C40_conj_closed.
Print Assumptions C40_conj_exact.
Print Assumptions C40_conj_junk.
Print Assumptions C40_real_spectrum_refuted.
Print Assumptions C40_same_sign_refuted.
Print Assumptions C40_order_refuted.
Print Assumptions C40_fit.
Print Assumptions C40_fit_stable.
Print Assumptions C40_fit_imag.
Print Assumptions C40_init_alpha.
Print Assumptions C41_descent.
Print Assumptions C41_coefficients.
Print Assumptions C41_errors.
Print Assumptions C41_step.
Print Assumptions C41_jacobian.
Print Assumptions C41_converged_refuted.
