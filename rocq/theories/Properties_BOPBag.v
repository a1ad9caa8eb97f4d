(** * C42: bagging in BOPDMD *)
From Coq Require Import QArith Lia.
From mathcomp Require Import all_ssreflect all_fingroup all_algebra all_field.
From Verif Require Import Py LinAlg Model_Operator Spec_Operator Proofs_Operator Ideal Model_BOP Spec_BOP.
From Verif Require Import Proofs_BOPEig Proofs_BOPVar Proofs_BOPJac Proofs_BOPBag Proofs_BOP BOPFloor Properties_BOP.
From Verif Require Model_Utils.
Set Implicit Arguments. Unset Strict Implicit. Unset Printing Implicit Defensive.
Import Order.TTheory GRing.Theory Num.Theory.
Local Open Scope ring_scope.

Section Main.
Variable C : numClosedFieldType.
Variables (np : numpy C) (x : ext C).

(** ** Bags *)
(** trial_size asks for [b] of [M] snapshots: an integer is the number itself, a fraction of the snapshots is
    rounded down *)
Definition requested (M : nat) (ts : trial_arg) (b : nat) : Prop :=
  match ts with
  | TInt z => z = BinInt.Z.of_nat b
  | TNum f => Qlt (inject_Z Z0) f /\ Qlt f (inject_Z (Zpos xH)) /\
      Qle (inject_Z (BinInt.Z.of_nat b)) (Qmult f (inject_Z (BinInt.Z.of_nat M))) /\
      Qlt (Qmult f (inject_Z (BinInt.Z.of_nat M))) (inject_Z (BinInt.Z.of_nat b.+1))
  end.

Lemma batchP M ts b : batch_size M ts = Ok b <-> requested M ts b /\ (0 < b <= M)%N.
Proof.
rewrite /batch_size; case: ts=> [z|f] /=.
  case: (BinInt.Z.leb_spec (Zpos xH) z)=> Lz /=; last first.
    by split=> // -[E /andP [/ssrnat.ltP B _]]; subst z; exfalso; lia.
  split.
    case: ltnP=> // LM; case: eqP=> // Nz [E]; split; last by rewrite -E LM lt0n andbT; apply/eqP.
    by rewrite -E Znat.Z2Nat.id //; lia.
  by move=> [-> /andP [B L]]; rewrite Znat.Nat2Z.id ltnNge L /= -leqn0 leqNgt B.
case E : (_ && _) => /=.
  have [F0 F1] := proj1 (betweenP f) E; split.
    case: ltnP=> // LM; case: eqP=> // Nz [Eb]; split; last by rewrite -Eb LM lt0n andbT; apply/eqP.
    by move: (proj1 (@floorP f M b F0) Eb)=> [A B].
  move=> [[_ [_ [A B]]] /andP [B0 L]]; rewrite (proj2 (@floorP f M b F0) (conj A B)).
  by rewrite ltnNge L /= -leqn0 leqNgt B0.
by split=> // -[[F0 [F1 _]] _]; move: E; rewrite (proj2 (betweenP f) (conj F0 F1)).
Qed.

Theorem C42_bag k M ts b : choice_ok x ->
  (exists l : seq 'I_M, [/\ bag x k M ts = Ok l, size l = b & sorted (fun i j : 'I_M => (i < j)%N) l]) <->
  requested M ts b /\ (0 < b <= M)%N.
Proof.
move=> Hc; rewrite -batchP; split=> [[l [E Sz _]]|E].
  by have [b' [-> <- _]] := bagP Hc E; rewrite Sz.
have [l El] : exists l, bag x k M ts = Ok l by rewrite /bag E; eexists.
by have [b' [E' Sz St]] := bagP Hc El; exists l; move: E'; rewrite E => -[Eb]; rewrite Eb.
Qed.
Theorem C42_bag_error k M ts e : bag x k M ts = Err e -> e = ValueError /\ forall b, requested M ts b -> ~~ (0 < b <= M)%N.
Proof.
rewrite /bag; case E : (batch_size M ts)=> [b|e'] //= -[<-].
have N b : batch_size M ts <> Ok b by rewrite E.
split; last by move=> b R; apply/negP=> L; apply: (N b); apply/batchP.
move: E; rewrite /batch_size; case: ts {N} => [z|f].
  by case: ifP=> _ /=; [case: ifP=> _; [case|case: ifP=> // _ []]|case].
by case: ifP=> _ /=; [case: ifP=> _; [case|case: ifP=> // _ []]|case].
Qed.

(** the trial of a bag fits exactly the chosen snapshots at their times, from the eigenvalues of the fit of all *)
Theorem C42_trial (cfg : bop_cfg C) o n q (P : 'M[C]_(n, q)) M (H : 'M[C]_(M, data_cols cfg n q)) (t : 'rV[C]_M) r (e0 : 'rV[C]_r) k u :
  bag_trial np x o P H t e0 k = Ok u ->
  exists2 l, bag x k M (bc_size cfg) = Ok l & single_trial np x o P (rows_at H l) (cols_at t l) e0 = Ok u /\
   forall (i : 'I_(size l)) j, rows_at H l i j = H (tnth (in_tuple l) i) j /\ cols_at t l 0 i = t 0 (tnth (in_tuple l) i).
Proof.
rewrite /bag_trial; case: (bag _ _ _ _)=> //= l E; exists l=> //; split=> // i j.
by rewrite !mxE.
Qed.

(** ** The bagged fit *)
(** the value of entry (i, j) over the kept trials, each in its own order *)
Definition column a b (f : nat -> 'M[C]_(a, b)) (l : seq nat) (g : nat -> 'I_b -> 'I_b) i j : seq C :=
  [seq f k i (g k j) | k <- l].

Theorem C42_statistics fuel (cfg : bop_cfg C) o n q (P : 'M[C]_(n, q)) M (H : 'M[C]_(M, data_cols cfg n q)) t r (al : 'rV[C]_r) u N :
  (0 < N)%N -> bc_trials cfg = N%:Z -> compute_operator np x fuel o P H t al = Some (Ok u) ->
  exists t0 K out g so sw se sb,
    [/\ single_trial np x o P H t al = Ok t0,
        forall k, (k < K)%N -> bag_trial np x o P H t (to_e t0) k = Ok (out k),
        (* exactly N trials are kept, the last one made among them *)
        (K <= fuel)%N /\ size (kept_among cfg out K) = N /\ kept cfg out K.-1,
        (* each kept trial is put in order; the means and the squared deviations go entry by entry *)
        [/\ forall k, k \in kept_among cfg out K -> sorted_by so (to_e (out k)) (g k),
            forall i j, bo_modes u i j = avg (column (fun k => to_w (out k)) (kept_among cfg out K) g i j),
            forall i j, bo_eigs u i j = avg (column (fun k => to_e (out k)) (kept_among cfg out K) g i j) &
            forall i j, bo_b u i j = avg (column (fun k => to_b (out k)) (kept_among cfg out K) g i j)] &
        [/\ bo_std u = Some (sw, se, sb),
            forall i j, 0 <= sw i j /\ sw i j ^+ 2 = var (column (fun k => to_w (out k)) (kept_among cfg out K) g i j),
            forall i j, 0 <= se i j /\ se i j ^+ 2 = var (column (fun k => to_e (out k)) (kept_among cfg out K) g i j) &
            forall i j, 0 <= sb i j /\ sb i j ^+ 2 = var (column (fun k => to_b (out k)) (kept_among cfg out K) g i j)]] /\
    (* bag_maxfail is not zero, and a positive one is never reached by consecutive failures; the order is the
       requested one, or the one chosen from the first kept trial *)
    [/\ bc_maxfail cfg != 0,
        forall mf a, bc_maxfail cfg = mf%:Z -> (a + mf <= K)%N -> exists2 i, (a <= i < a + mf)%N & kept cfg out i &
        so = if bc_sort cfg is EsAuto then auto_sort (to_e (out (head 0%N (kept_among cfg out K)))) else bc_sort cfg].
Proof.
move=> N0 EN; rewrite /compute_operator; case E : (single_trial _ _ _ _ _ _ _)=> [t0|//].
have NN : (bc_trials cfg <= 0) = false by rewrite EN lez_nat leqNgt N0.
rewrite NN; case L : (bag_loop _ _ _ _ _ _ _ _)=> [[s|]|] // [<-].
set run := bag_trial np x o P H t (to_e t0) in L *.
have [K [g [LK GR]]] := loop_okP L; pose out := got run; pose l := kept_among cfg out K.
have Kp : (0 < K)%N.
  by case: K LK GR {l} => // _ GR; have := gr_le GR; rewrite /keepers /= NN.
have [EK Kk] := gr_eq GR Kp; rewrite !add0n in EK Kk.
have Sl : size l = N by move: EK; rewrite EN => -[].
have Nl : l != [::] by rewrite -size_eq0 Sl -lt0n.
have NC : (bc_trials cfg)%:~R = N%:R :> C by rewrite EN.
have AV a (f : trial_out C n q r -> 'M[C]_(a, r)) i j :
    total run f l g id i j / N%:R = avg (column (fun k => f (out k)) l g i j).
  by rewrite mxE /avg /column big_map size_map Sl.
have VA a (f : trial_out C n q r -> 'M[C]_(a, r)) i j :
    sqrtC `|total run f l g (fun z => `|z| ^+ 2) i j / N%:R - `|total run f l g id i j / N%:R| ^+ 2| ^+ 2 =
    var (column (fun k => f (out k)) l g i j).
  rewrite sqrtCK AV.
  have Nc : column (fun k => f (out k)) l g i j != [::] by rewrite -size_eq0 size_map size_eq0.
  have -> : total run f l g (fun z => `|z| ^+ 2) i j / N%:R =
    (\sum_(a <- column (fun k => f (out k)) l g i j) `|a| ^+ 2) / (size (column (fun k => f (out k)) l g i j))%:R.
    by rewrite mxE /column big_map size_map Sl.
  by rewrite -varE // ger0_norm // var_ge0.
pose NR : C := (bc_trials cfg)%:~R.
exists t0, K, out, g, (sort_used run (bc_sort cfg) l).
exists (std_mx NR (su_w s) (su_w2 s)), (std_mx NR (su_e s) (su_e2 s)), (std_mx NR (su_b s) (su_b2 s)).
split; last split.
- split=> //; first by move=> k Hk; apply: (gr_ok GR).
  + split; [exact: (gr_sort GR)|..]; move=> i j; rewrite /= mxE NC ?(gr_w GR) ?(gr_e GR) ?(gr_b GR) /= add0r; exact: AV.
  split=> //; move=> i j; rewrite mxE /NR NC ?(gr_w GR) ?(gr_e GR) ?(gr_b GR) ?(gr_w2 GR) ?(gr_e2 GR) ?(gr_b2 GR) /= !add0r;
    (split; [by rewrite sqrtC_ge0|exact: VA]).
- exact: (gr_pos GR).
- move=> mf a Em La; case: mf Em La=> [|mf] Em La.
    by have := gr_pos GR Nl; rewrite Em.
  by have [i Hi Ki] := gr_fail GR Em (leq0n (a + 0)) La (ltn0Sn mf); exists i.
rewrite /sort_used -/l; case: l Nl {Sl AV VA} => // i0 l0 _ /=; by case: (bc_sort cfg).
Qed.

(** ** eig_sort="auto" *)
Definition sort_key (so : esort) (z : C) : C := match so with EsReal => 'Re z | EsImag => 'Im z | _ => `|z| end.
(** the variance of the eigenvalues' keys *)
Definition spread (so : esort) r (e : 'rV[C]_r) : C := var [seq sort_key so (e 0 j) | j <- enum 'I_r].
Lemma spreadE so r (e : 'rV[C]_r) : variance (fun j => sort_key so (e 0 j)) = spread so e.
Proof.
have Rk z : sort_key so z \is Num.real by case: so => /=; rewrite ?Creal_Re ?Creal_Im ?normr_real.
have Em : avg [seq sort_key so (e 0 j) | j <- enum 'I_r] = mean (fun j => sort_key so (e 0 j)).
  by rewrite /avg /mean big_map size_map -cardE card_ord big_enum.
rewrite /spread /var Em /avg size_map size_map size_enum_ord big_map big_map big_enum /variance {1}/mean /=; congr (_ / _).
apply: eq_bigr => j _; rewrite real_normK // rpredB // /mean.
by rewrite rpredM ?rpred_sum // rpredV realn.
Qed.
(** "auto" chooses, among the real part, the imaginary part and the modulus, the first one whose variance over the
    eigenvalues is the largest, and sorts by it *)
Theorem C42_auto_sort r (e : 'rV[C]_r) :
  exists so s, [/\ argsort_eigs EsAuto e = Ok (so, s), sorted_by so e s,
    [\/ so = EsReal, so = EsImag | so = EsAbs],
    forall so', [\/ so' = EsReal, so' = EsImag | so' = EsAbs] -> spread so' e <= spread so e &
    (so = EsImag -> spread EsReal e < spread EsImag e) /\
    (so = EsAbs -> spread EsReal e < spread EsAbs e /\ spread EsImag e < spread EsAbs e)].
Proof.
have [so [s [E O]]] : exists so s, argsort_eigs EsAuto e = Ok (so, s) /\ so = auto_sort e.
  rewrite /argsort_eigs; case E: (auto_sort e); try (by eexists; eexists; split).
    by have := auto_stable E.
  by move: E; rewrite /auto_sort; case: ifP => // _; case: ifP.
have [St _] := argsort_eigsP E; exists so, s; rewrite {}E {}O in St *.
have Rs so1 : spread so1 e \is Num.real by apply: ger0_real; apply: var_ge0.
move: (spreadE EsReal e) (spreadE EsImag e) (spreadE EsAbs e) => /= Er Ei Ea.
move: St; rewrite /auto_sort Er Ei Ea.
have T a b : (spread a e <= spread b e) = false -> spread b e < spread a e.
  by move=> H; rewrite real_ltNge // H.
case: ifP => [/andP[Vi Va]|V1].
  by split=> //; [exact: Or31 | move=> so' [] ->].
case: ifP => Va2.
  have Vr : spread EsReal e < spread EsImag e.
    case Vi: (spread EsImag e <= spread EsReal e); last exact: T.
    by move: V1; rewrite Vi (le_trans Va2 Vi).
  by split=> //; [exact: Or32 | move=> so' [] -> //; exact: ltW].
have Vi := T _ _ Va2.
have Vr : spread EsReal e < spread EsAbs e.
  case Vr: (spread EsAbs e <= spread EsReal e); last exact: T.
  by move: V1; rewrite Vr (ltW (lt_le_trans Vi Vr)).
by split=> //; [exact: Or33 | move=> so' [] -> //; exact: ltW].
Qed.

(** ** When it raises, ends, or does not end *)
(** bagging raises what a trial raises, ValueError for an unknown order, or RuntimeError: after bag_maxfail
    consecutive failures with fewer than num_trials kept, or at the first kept trial when bag_maxfail is 0 *)
Theorem C42_raises fuel (cfg : bop_cfg C) o n q (P : 'M[C]_(n, q)) M (H : 'M[C]_(M, data_cols cfg n q)) t r (al : 'rV[C]_r) e :
  0 < bc_trials cfg -> compute_operator np x fuel o P H t al = Some (Err e) ->
  single_trial np x o P H t al = Err e \/
  exists t0 out K, [/\ single_trial np x o P H t al = Ok t0, (K < fuel)%N,
    forall k, (k < K)%N -> bag_trial np x o P H t (to_e t0) k = Ok (out k),
    (size (kept_among cfg out K))%:Z < bc_trials cfg &
    [\/ bag_trial np x o P H t (to_e t0) K = Err e,
        e = ValueError /\ bc_sort cfg = EsBad,
        [/\ e = RuntimeError, bc_maxfail cfg = 0, bag_trial np x o P H t (to_e t0) K = Ok (out K) & kept cfg out K] |
        exists mf a, [/\ e = RuntimeError, bc_maxfail cfg = mf%:Z, (a + mf)%N = K.+1,
          bag_trial np x o P H t (to_e t0) K = Ok (out K) & forall i, (a <= i < a + mf)%N -> ~~ kept cfg out i]]].
Proof.
move=> N; rewrite /compute_operator; case E : (single_trial _ _ _ _ _ _ _)=> [t0|e']; last by move=> [<-]; left.
rewrite leNgt N /=; case L : (bag_loop _ _ _ _ _ _ _ _)=> [[s|e1]|] // [Ee]; rewrite Ee in L; right.
set run := bag_trial np x o P H t (to_e t0) in L *.
have [K LK [R1 [R2 R3]]] := loop_errP (leqnn 0) L; rewrite !add0n in R1 R2 R3.
exists t0, (got run), K; split=> //.
case: R3=> [H1|[w Ew [Kw As]]|H3|[a [mf [H4 H5 H6 [_ H7] H8]]]].
- exact: Or41.
- apply: Or42; move: As; rewrite /argsort_eigs.
  have AS r0 (e0 : 'rV[C]_r0) : [\/ auto_sort e0 = EsReal, auto_sort e0 = EsImag | auto_sort e0 = EsAbs].
    by rewrite /auto_sort; case: ifP=> _; [apply: Or31|case: ifP=> _; [apply: Or32|apply: Or33]].
  rewrite /sort_used; case: (keepers _ _ _ _)=> [|i0 l0]; case Es : (bc_sort cfg)=> //=; rewrite ?Es.
  all: try by move=> [<-].
  + by case: (AS _ (to_e w))=> ->.
  by case: (AS _ (to_e (got run i0)))=> Ea; rewrite Ea /= ?Ea.
- exact: Or43.
apply: Or44; exists mf, a; split=> //; by move=> i Hi; rewrite (H8 i) //.
Qed.

(** a positive bag_maxfail bounds the number of trials, and so does keeping every bag *)
Theorem C42_ends (cfg : bop_cfg C) o n q (P : 'M[C]_(n, q)) M (H : 'M[C]_(M, data_cols cfg n q)) t r (al : 'rV[C]_r) N mf :
  bc_trials cfg = N%:Z -> bc_maxfail cfg = mf%:Z -> (0 < mf)%N ->
  compute_operator np x (N * mf) o P H t al <> None.
Proof.
move=> EN EM M0; rewrite /compute_operator; case: (single_trial _ _ _ _ _ _ _)=> // t0; case: ifP=> // _.
have := @loop_ends _ cfg _ _ _ (bag_trial np x o P H t (to_e t0)) (N * mf) 0 0 0 (bc_sort cfg) (no_sums C n r) N mf EN EM M0.
by rewrite subn0 addn0 leqnn => /(_ isT); case: (bag_loop _ _ _ _ _ _ _ _)=> // -[].
Qed.
Theorem C42_ends_keeping (cfg : bop_cfg C) o n q (P : 'M[C]_(n, q)) M (H : 'M[C]_(M, data_cols cfg n q)) t r (al : 'rV[C]_r) N :
  bc_trials cfg = N%:Z -> ~~ bc_remove cfg -> compute_operator np x N o P H t al <> None.
Proof.
move=> EN Rm; rewrite /compute_operator; case: (single_trial _ _ _ _ _ _ _)=> // t0; case: ifP=> // _.
have := @loop_keeps _ cfg _ _ _ (bag_trial np x o P H t (to_e t0)) N 0 0 0 (bc_sort cfg) (no_sums C n r) N EN Rm.
by rewrite subn0 leqnn => /(_ isT); case: (bag_loop _ _ _ _ _ _ _ _)=> // -[].
Qed.
(** once it has ended, more rounds change nothing *)
Theorem C42_stable_answer fuel fuel' (cfg : bop_cfg C) o n q (P : 'M[C]_(n, q)) M (H : 'M[C]_(M, data_cols cfg n q)) t r (al : 'rV[C]_r) v :
  (fuel <= fuel')%N -> compute_operator np x fuel o P H t al = Some v -> compute_operator np x fuel' o P H t al = Some v.
Proof.
move=> L; rewrite /compute_operator; case: (single_trial _ _ _ _ _ _ _)=> // t0; case: ifP=> // _.
case E : (bag_loop _ _ fuel _ _ _ _ _)=> [b|//]; by rewrite (loop_more L E).
Qed.

(** Refuted: "bag_maxfail = 0 disables the limit" or "is reached only by failures": it makes every bagged fit
    without failures raise *)
Theorem C42_maxfail_zero_refuted fuel (cfg : bop_cfg C) o n q (P : 'M[C]_(n, q)) M (H : 'M[C]_(M, data_cols cfg n q)) t r (al : 'rV[C]_r) u :
  0 < bc_trials cfg -> bc_maxfail cfg = 0 -> compute_operator np x fuel o P H t al <> Some (Ok u).
Proof.
case EN : (bc_trials cfg)=> [N|//] N0 E0 E.
by have [? [? [? [? [? [? [? [? [_ []]]]]]]]]] := C42_statistics N0 EN E; rewrite E0.
Qed.

(** Refuted: "remove_bad_bags drops only the bags whose fit is bad": with data that the model fits exactly from
    the given eigenvalues every bag is dropped, so the fit raises RuntimeError, or never ends when bag_maxfail
    is not positive *)
Lemma exact_trial (cfg : bop_cfg C) o n q (P : 'M[C]_(n, q)) M (t : 'rV[C]_M) r (al : 'rV[C]_r) (B : 'M[C]_(r, data_cols cfg n q)) :
  (forall a b (A : 'M[C]_(a, b)), norm_ok np A) -> (forall a b (A : 'M[C]_(a, b)) y, lstsq_ok np A y) ->
  bc_con cfg = ConSet C (CSet false false false false) -> prox_unprojected cfg = None ->
  exists u, [/\ single_trial np x o P (exp_mx x t al *m B) t al = Ok u, to_e u = al & to_conv u = false].
Proof.
move=> No Ls Ec Ep.
have [B' [E _]] := C41_converged_refuted x o t al B No Ls.
rewrite /single_trial Ec Ep E /=; case: (lift_modes _ _ _ _)=> W At /=; by eexists.
Qed.

Theorem C42_exact_data_refuted fuel (cfg : bop_cfg C) o n q (P : 'M[C]_(n, q)) M (t : 'rV[C]_M) r (al : 'rV[C]_r)
    (B : 'M[C]_(r, data_cols cfg n q)) :
  (forall a b (A : 'M[C]_(a, b)), norm_ok np A) -> (forall a b (A : 'M[C]_(a, b)) y, lstsq_ok np A y) ->
  bc_con cfg = ConSet C (CSet false false false false) -> prox_unprojected cfg = None ->
  bc_remove cfg -> 0 < bc_trials cfg -> (exists b, requested M (bc_size cfg) b /\ (0 < b <= M)%N) ->
  let H := exp_mx x t al *m B in
  compute_operator np x fuel o P H t al =
    if (0 < bc_maxfail cfg) && (bc_maxfail cfg <= fuel%:Z) then Some (Err RuntimeError) else None.
Proof.
move=> No Ls Ec Ep Rm N0 [b /batchP Eb] H.
have [u [Eu Ee Ev]] := exact_trial o P t al B No Ls Ec Ep.
rewrite /compute_operator Eu leNgt N0 Ee /=.
have Al i : bag_trial np x o P H t al i = Ok (got (bag_trial np x o P H t al) i) /\
            kept cfg (got (bag_trial np x o P H t al)) i = false.
  have [w [Ew Kw]] : exists w, bag_trial np x o P H t al i = Ok w /\ to_conv w = false.
    rewrite /bag_trial /bag Eb /=; set l := sort _ _.
    have -> : rows_at H l = exp_mx x (cols_at t l) al *m B.
      by apply/matrixP=> a c; rewrite !mxE; apply: eq_bigr=> k _; rewrite !mxE.
    by have [w [Ew _ Kw]] := exact_trial o P (cols_at t l) al B No Ls Ec Ep; exists w.
  by rewrite /kept /got Ew Kw Rm.
case Em : (bc_maxfail cfg)=> [mf|mf]; last by rewrite loop_forever //= Em.
case: mf Em=> [|mf] Em; first by rewrite loop_forever //= Em.
rewrite /= lez_nat; case: ltnP=> Lf.
  by rewrite (loop_fails (mf := mf.+1)) // subn0.
have F f k fails so s : (fails + f < mf.+1)%N ->
  bag_loop cfg (bag_trial np x o P H t al) f k 0 fails so s = None.
  elim: f k fails s=> [|f IH] k fails s Lk; first by rewrite /= leNgt N0.
  have [R1 R2] := Al k; rewrite loopE leNgt N0 /= R1; move: R2; rewrite /kept => ->.
  rewrite Em eqz_nat; case: eqP=> [Ek|_]; last by apply: IH; rewrite addSnnS.
  by move: Lk; rewrite -Ek addnS ltnS => Lk; have := leq_trans Lk (leq_addr f fails); rewrite ltnn.
by rewrite F.
Qed.
End Main.

(** ** Concrete cases *)
Section Case.
Let K := algCnumClosedField.
Let np := ideal K.
Let x := ideal_ext (fun z : K => 1 + z).
Let opts : vopts K := VOpts 1 52 2%:R true 30 (10%:R ^+ 6)^-1 (10%:R ^+ 12)^-1 true.
Let con : constr K := ConSet K (CSet false false false false).
(** half of five snapshots: two of them *)
Example C42_case_bag : exists l, [/\ bag x 0 5 (TNum (Qmake (Zpos xH) 2%positive)) = Ok l, size l = 2%N & sorted (fun i j : 'I_5 => (i < j)%N) l].
Proof.
have [_ Hc _] := ideal_ext_ok (fun z : K => 1 + z).
by apply/(C42_bag 0 5 (TNum (Qmake (Zpos xH) 2%positive)) 2 Hc); split=> //; repeat split; rewrite /Qlt /Qle /=; lia.
Qed.
(** two trials of two of three snapshots, all kept *)
Let cfg : bop_cfg K := BopCfg true true 2%N%:Z (TInt (Zpos (xO xH))) EsAuto con None false 200%N%:Z (Some opts).
Example C42_case_fit : exists u,
  @compute_operator K np x 2 cfg opts 2 2 1%:M 3 (\matrix_(i, j) (if i == j :> nat then 'i else 2%:R)) (\row_j (nat_of_ord j)%:R) 2 (\row_j 'i ^+ j)
  = Some (Ok u).
Proof.
set H : 'M_(3, _) := \matrix_(i, j) _; set t := \row_j _; set al := \row_j _.
have St M (H' : 'M[K]_(M, data_cols cfg 2 2)) t' (a : 'rV[K]_2) e : single_trial np x opts (1%:M : 'M_2) H' t' a <> Err e.
  rewrite /single_trial; case E : (variable_projection _ _ _ _ _ _ _ _)=> [v|er] /=.
    by [].
  by have [_ [s [<-]]] := C41_errors E.
case E : (compute_operator _ _ _ _ _ _ _ _)=> [[u|e]|]; first by exists u.
  have [//|/St //|[t0 [out [k [_ _ _ _ D]]]]] := C42_raises _ E.
  case: D=> [|[_] //|[_] //|[mf [a [_ Em _ _ /(_ a)]]]].
    rewrite /bag_trial; case Eb : (bag _ _ _ _)=> [l|e1] //=; first by move/St.
  by rewrite leqnn -[X in (X < _)%N]addn0 ltn_add2l /kept orbT; case: mf Em=> // mf _; move/(_ isT).
by have := @C42_ends_keeping K np x cfg opts 2 2 1%:M 3 H t 2 al 2 erefl erefl; rewrite E.
Qed.
(** the same bags of data that fit exactly: RuntimeError after five trials *)
Let cfg2 : bop_cfg K := BopCfg true true 2%N%:Z (TInt (Zpos (xO xH))) EsAuto con None true 5%N%:Z (Some opts).
Example C42_case_exact :
  let t : 'rV[K]_3 := \row_j (nat_of_ord j)%:R in let al : 'rV[K]_2 := \row_j 'i ^+ j in
  @compute_operator K np x 7 cfg2 opts 2 2 1%:M 3 (exp_mx x t al *m const_mx 1) t 2 al = Some (Err RuntimeError).
Proof.
move=> t al; have [_ [_ [Ls [_ [_ [_ [No _]]]]]]] := ideal_contracts K.
by rewrite (@C42_exact_data_refuted K np x 7 cfg2) //; exists 2%N.
Qed.
End Case.

Print Assumptions C42_bag.
Print Assumptions C42_bag_error.
Print Assumptions C42_trial.
Print Assumptions C42_statistics.
Print Assumptions C42_auto_sort.
Print Assumptions C42_raises.
Print Assumptions C42_ends.
Print Assumptions C42_ends_keeping.
Print Assumptions C42_stable_answer.
Print Assumptions C42_maxfail_zero_refuted.
Print Assumptions C42_exact_data_refuted.
