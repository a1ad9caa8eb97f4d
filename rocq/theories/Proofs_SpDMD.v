(** * Sparsity-promoting DMD: proofs *)
From mathcomp Require Import all_ssreflect all_algebra.
From Verif Require Import Py LinAlg Model_Operator Spec_Operator Proofs_OptAmp Model_SpDMD Spec_SpDMD.
Set Implicit Arguments. Unset Strict Implicit. Unset Printing Implicit Defensive.
Import GRing.Theory Num.Theory Order.TTheory.
Local Open Scope ring_scope.

Section Quadratic.
Variable C : numClosedFieldType.
Variables (n r N : nat) (Phi : 'M[C]_(n, r)) (L : 'rV[C]_r) (S : 'M[C]_(n, N)).
Let P := opt_P Phi L N.
Let q := opt_q_exact Phi L S.
Let ev b := evolution Phi L b N.

Lemma evo_inner (c : 'cV[C]_r) (R : 'M[C]_(n, N)) :
  \tr (adj (ev c) *m R) = \sum_i (adj Phi *m R *m adj (vander L N)) i i * (c i 0)^*.
Proof.
set V := vander L N.
rewrite /ev evolutionE adjM adjM -mulmxA mxtrace_mulC.
have -> : adj Phi *m R *m (adj V *m adj (diag_mx c^T)) = (adj Phi *m R *m adj V) *m adj (diag_mx c^T) by rewrite !mulmxA.
have D : adj (diag_mx c^T) = diag_mx (map_mx conjC c^T).
  apply/matrixP=> i j; rewrite adjE !mxE eq_sym; case: eqP=> [->|_]; by rewrite ?mulr1n ?mulr0n ?rmorph0.
by rewrite D /mxtrace; apply: eq_bigr=> i _; rewrite mul_mx_diag [LHS]mxE !mxE.
Qed.
Lemma evo_res_inner (c b : 'cV[C]_r) : \tr (adj (ev c) *m (S - ev b)) = \sum_i (q - P *m b) i 0 * (c i 0)^*.
Proof.
rewrite evo_inner; apply: eq_bigr=> i _; congr (_ * _).
by rewrite mulmxBr mulmxBl [LHS]mxE [X in _ + X]mxE [RHS]mxE [X in _ = _ + X]mxE -opt_qE -opt_PE.
Qed.
Lemma evo_quad (c b : 'cV[C]_r) : \tr (adj (ev c) *m ev b) = \sum_i (P *m b) i 0 * (c i 0)^*.
Proof. by rewrite evo_inner; apply: eq_bigr=> i _; rewrite -opt_PE. Qed.

Lemma evo_P0 x : ev x = 0 -> P *m x = 0.
Proof. by move=> E; apply/colP=> i; rewrite opt_PE -/(ev x) E mulmx0 mul0mx !mxE. Qed.
Lemma evo_frob (x : 'cV[C]_r) : frob2 (ev x) = (adj x *m P *m x) 0 0.
Proof. by rewrite frob2_tr' evo_quad -mulmxA [RHS]mxE; apply: eq_bigr=> i _; rewrite adjE mulrC. Qed.

Lemma frob2_add m p (A B : 'M[C]_(m, p)) :
  frob2 (A + B) = frob2 A + frob2 B + (\tr (adj B *m A) + (\tr (adj B *m A))^*).
Proof.
rewrite !frob2_tr' adjD mulmxDl !mulmxDr !mxtraceD.
have T (M : 'M[C]_p) : \tr (adj M) = (\tr M)^* by rewrite /mxtrace rmorph_sum; apply: eq_bigr=> i _; rewrite adjE.
have -> : adj A *m B = adj (adj B *m A) by rewrite adjM adjK.
rewrite T; set x := \tr (adj A *m A); set y := \tr (adj B *m B); set t := \tr _.
by rewrite [t + y]addrC addrACA [t^* + t]addrC.
Qed.

(** the penalised problem solved by the alpha step *)
Lemma alpha_minimises (rho : C) (u a : 'cV[C]_r) : 0 < rho ->
  P *m a + (rho / 2%:R) *: a = q + (rho / 2%:R) *: u ->
  forall c, let f x := frob2 (S - ev x) + rho / 2%:R * frob2 (x - u) in
  f a <= f c /\ (f c <= f a -> c = a).
Proof.
move=> Hr H c f; set h := rho / 2%:R in H f *.
have h0 : 0 < h by rewrite divr_gt0 ?ltr0n.
have hr : h^* = h by rewrite conj_Creal // gtr0_real.
have E : f c = f a + (frob2 (ev (a - c)) + h * frob2 (a - c)).
  rewrite /f.
  have -> : S - ev c = (S - ev a) + ev (a - c) by rewrite /ev evolutionB addrA subrK.
  have -> : c - u = (a - u) + (c - a) by rewrite [RHS]addrC addrA subrK.
  rewrite frob2_add [frob2 (a - u + _)]frob2_add.
  have -> : frob2 (c - a) = frob2 (a - c).
    by rewrite -opprB /frob2; apply: eq_bigr=> i _; apply: eq_bigr=> j _; rewrite mxE normrN.
  set t1 := \tr _; set t2 := \tr _.
  have T : t1 + h * t2 = 0.
    rewrite /t1 /t2 evo_res_inner /mxtrace big_ord1 mxE mulr_sumr -big_split big1 //= => i _.
    have /(congr1 (fun M : 'cV[C]_r => M i 0)) := H.
    rewrite [LHS]mxE [X in _ + X = _]mxE [RHS]mxE [X in _ = _ + X]mxE => Hi.
    rewrite adjE [(q - _) i 0]mxE [(- (P *m a)) i 0]mxE.
    have -> : q i 0 - (P *m a) i 0 = h * (a i 0 - u i 0).
      by apply/eqP; rewrite subr_eq mulrBr addrAC eq_sym subr_eq -Hi addrC.
    have D2 (x y : 'cV[C]_r) : (x - y) i 0 = x i 0 - y i 0 by rewrite !mxE.
    rewrite !D2 -mulrA -mulrDr [X in h * (_ + X)]mulrC -mulrDr -rmorphD /=.
    have -> : a i 0 - c i 0 + (c i 0 - a i 0) = 0 by rewrite addrA subrK subrr.
    by rewrite rmorph0 !mulr0.
  have T' : t1^* + h * t2^* = 0 by rewrite -[h]hr -rmorphM -rmorphD T rmorph0.
  have -> : frob2 (S - ev a) + frob2 (ev (a - c)) + (t1 + t1^*) + h * (frob2 (a - u) + frob2 (a - c) + (t2 + t2^*))
    = frob2 (S - ev a) + h * frob2 (a - u) + (frob2 (ev (a - c)) + h * frob2 (a - c)) + ((t1 + h * t2) + (t1^* + h * t2^*)).
    rewrite !mulrDr; set x1 := frob2 (S - _); set x2 := frob2 (ev _); set x3 := h * frob2 _; set x4 := h * frob2 _.
    by rewrite [t1 + _ + _]addrACA [x1 + _ + (x2 + _)]addrACA [RHS]addrACA.
  by rewrite T T' !addr0.
have nn : 0 <= frob2 (ev (a - c)) + h * frob2 (a - c).
  by rewrite addr_ge0 ?frob2_ge0 // mulr_ge0 ?frob2_ge0 // ltW.
rewrite E ler_addl; split=> //; rewrite ger_addl => Hle.
have : frob2 (ev (a - c)) + h * frob2 (a - c) == 0 by rewrite eq_le Hle nn.
have nf : 0 <= h * frob2 (a - c) by rewrite mulr_ge0 ?frob2_ge0 // ltW.
rewrite paddr_eq0 ?frob2_ge0 // => /andP[_].
by rewrite mulf_eq0 (gt_eqF h0) /= frob2_eq0 subr_eq0 => /eqP ->.
Qed.

(** P is positive semi-definite, so that the matrix to factor is positive definite *)
Lemma P_herm : adj P = P.
Proof.
have H (M : 'M[C]_(n, r)) i j : (adj M *m M) j i = ((adj M *m M) i j)^*.
  by rewrite -[RHS]adjE adjM adjK.
have H' (M : 'M[C]_(r, N)) i j : (M *m adj M) j i = ((M *m adj M) i j)^*.
  by rewrite -[RHS]adjE adjM adjK.
have E i j : P i j = (adj Phi *m Phi) i j * ((vander L N *m adj (vander L N)) i j)^*.
  by rewrite /P /opt_P /hadamard [LHS]mxE; congr (_ * _); rewrite /conj_mx [LHS]mxE.
by apply/matrixP=> i j; rewrite adjE !E rmorphM /= -H -H'.
Qed.
Lemma P_posdef (rho : C) : 0 < rho -> posdef (P + (rho / 2%:R)%:M).
Proof.
move=> Hr; have h0 : 0 < rho / 2%:R by rewrite divr_gt0 ?ltr0n.
split.
  rewrite adjD P_herm; congr (_ + _); apply/matrixP=> i j; rewrite adjE !mxE eq_sym.
  by case: eqP=> _; rewrite ?mulr1n ?mulr0n ?rmorph0 // conj_Creal // gtr0_real.
move=> x x0; rewrite mulmxDr mulmxDl mxE -evo_frob mul_mx_scalar -scalemxAl.
have -> : ((rho / 2%:R) *: (adj x *m x)) 0 0 = rho / 2%:R * frob2 x by rewrite mxE frob2_tr' /mxtrace big_ord1.
rewrite ltr_paddl ?frob2_ge0 // mulr_gt0 //.
by rewrite lt_def frob2_ge0 frob2_eq0 x0.
Qed.

(** ** The constrained problem *)
Variable Z : {set 'I_r}.
Lemma basis_mul (y : 'cV[C]_#|Z|) i : i \notin Z -> (basis_cols C Z *m y) i 0 = 0.
Proof.
move=> Hi; rewrite mxE big1 // => j _; rewrite mxE.
case: eqP => [E|_]; last by rewrite mul0r.
by move: Hi; rewrite E enum_valP.
Qed.
Lemma basis_adj (x : 'cV[C]_r) j : (adj (basis_cols C Z) *m x) j 0 = x (enum_val j) 0.
Proof.
rewrite mxE (bigD1 (enum_val j)) //= big1 ?addr0.
  by rewrite adjE mxE eqxx conjC1 mul1r.
by move=> i Hi; rewrite adjE mxE (negbTE Hi) conjC0 mul0r.
Qed.
Lemma basis_adj0 (x : 'cV[C]_r) : adj (basis_cols C Z) *m x = 0 -> forall i, i \in Z -> x i 0 = 0.
Proof.
move=> H i Hi; have := basis_adj x (enum_rank_in Hi i); rewrite H mxE enum_rankK_in //.
Qed.
Lemma basis_inj (y : 'cV[C]_#|Z|) : basis_cols C Z *m y = 0 -> y = 0.
Proof.
move=> H; apply/colP=> j; rewrite mxE.
have /(congr1 (fun M : 'cV[C]_r => M (enum_val j) 0)) := H; rewrite !mxE (bigD1 j) //= big1 ?addr0.
  by rewrite mxE eqxx mul1r.
move=> k Hk; rewrite mxE; case: eqP => [/enum_val_inj E|_]; last by rewrite mul0r.
by move: Hk; rewrite E eqxx.
Qed.

Lemma ker_unit k (M : 'M[C]_k) : (forall v : 'cV[C]_k, M *m v = 0 -> v = 0) -> M \in unitmx.
Proof.
move=> H; rewrite -unitmx_tr -row_free_unit -kermx_eq0; apply/eqP/row_matrixP=> i.
rewrite row0; apply: trmx_inj; rewrite trmx0; apply: H; apply: trmx_inj.
rewrite trmx_mul trmxK trmx0 -row_mul mulmx_ker row0 //.
Qed.
Lemma kkt_unit : P \in unitmx -> kkt P Z \in unitmx.
Proof.
move=> U; apply: ker_unit=> v; rewrite -[v]vsubmxK; set x := usubmx v; set y := dsubmx v.
rewrite /kkt mul_block_col mul0mx addr0 -[0]vsubmxK => /eq_col_mx; rewrite !linear0 => -[H1 H2].
have xZ := basis_adj0 H2.
have E0 : ev x = 0.
  apply/eqP; rewrite -frob2_eq0 frob2_tr' evo_quad big1 // => i _.
  have -> : P *m x = - (basis_cols C Z *m y) by apply/eqP; rewrite -addr_eq0 H1.
  case Hi: (i \in Z); first by rewrite (xZ _ Hi) conjC0 mulr0.
  by rewrite mxE basis_mul ?Hi // oppr0 mul0r.
have Px := evo_P0 E0.
have x0 : x = 0 by move/(congr1 (mulmx (invmx P))): Px; rewrite mulKmx // mulmx0.
have y0 : y = 0 by apply: basis_inj; rewrite -H1 Px add0r.
by rewrite x0 y0 col_mx0.
Qed.

Lemma kkt_solution (x : 'cV[C]_r) y : kkt P Z *m col_mx x y = col_mx q 0 ->
  (forall i, i \in Z -> x i 0 = 0) /\ (forall i, i \notin Z -> (P *m x) i 0 = q i 0).
Proof.
rewrite /kkt mul_block_col mul0mx addr0 => /eq_col_mx [H1 H2]; split; first exact: basis_adj0.
by move=> i Hi; rewrite -H1 [RHS]mxE basis_mul // addr0.
Qed.
Lemma constrained_optimal (x : 'cV[C]_r) : (forall i, i \in Z -> x i 0 = 0) ->
  (forall i, i \notin Z -> (P *m x) i 0 = q i 0) ->
  forall c : 'cV[C]_r, (forall i, i \in Z -> c i 0 = 0) ->
  frob2 (S - ev x) <= frob2 (S - ev c) /\
  (P \in unitmx -> frob2 (S - ev c) <= frob2 (S - ev x) -> c = x).
Proof.
move=> xZ HP c cZ.
have -> : S - ev c = (S - ev x) + ev (x - c) by rewrite /ev evolutionB addrA subrK.
have O : \tr (adj (ev (x - c)) *m (S - ev x)) = 0.
  rewrite evo_res_inner big1 // => i _; case Hi: (i \in Z).
    by rewrite ![((_ - c) : 'cV[C]_r) i 0]mxE ![((- c) : 'cV[C]_r) i 0]mxE xZ // cZ // subrr conjC0 mulr0.
  by rewrite ![((q - _) : 'cV[C]_r) i 0]mxE ![((- _) : 'cV[C]_r) i 0]mxE HP ?Hi // subrr mul0r.
rewrite (frob2D O) ler_addl frob2_ge0; split=> // U; rewrite ger_addl => Hle.
have E : ev (x - c) = 0 by apply/eqP; rewrite -frob2_eq0 eq_le Hle frob2_ge0.
have := evo_P0 E; move/(congr1 (mulmx (invmx P))); rewrite mulKmx // mulmx0 => /subr0_eq ->.
by [].
Qed.
End Quadratic.

(** ** The loop *)
Section Loop.
Variable C : numClosedFieldType.
Variables (np : numpy C) (cfg : sp_cfg C) (r : nat) (P Lo : 'M[C]_r) (q : 'cV[C]_r).
Let z := of_cV (0 : 'cV[C]_r).

Definition admm_seq (k : nat) : nvec C r * nvec C r * nvec C r :=
  iter k (fun s => update np cfg Lo q s.1.2 s.2) (z, z, z).
Let sa k := (admm_seq k).1.1.
Let sb k := (admm_seq k).1.2.
Let sl k := (admm_seq k).2.

Lemma clean_some (v : nvec C r) (x : 'cV[C]_r) : (forall i, v i = Some (x i 0)) -> clean v = Some x.
Proof.
move=> H; rewrite /clean ifT; last by apply/forallP=> i; rewrite H.
by congr Some; apply/colP=> i; rewrite mxE H.
Qed.
Lemma clean_inv (v : nvec C r) (x : 'cV[C]_r) : clean v = Some x -> forall i, v i = Some (x i 0).
Proof.
rewrite /clean; case: ifP=> // /forallP H [<-] i; rewrite mxE; by move: (H i); case: (v i).
Qed.
Lemma clean_none (v : nvec C r) i : v i = None -> clean v = None.
Proof. by move=> H; rewrite /clean ifF //; apply/negbTE/forallPn; exists i; rewrite H. Qed.

Lemma soft_form k v : soft_threshold k v = if v == 0 then None else Some (if k < `|v| then (1 - k) * (v / `|v|) else 0) :> option C.
Proof.
by rewrite /soft_threshold; case: eqP=> // _; congr Some; case: ifP=> _; rewrite ?mulr1 ?mulr0 // -mulrA [_^-1 * v]mulrC.
Qed.

Lemma loop_spec fuel : forall k i old,
  admm_loop np cfg Lo q fuel k (sa k.+1) (sb k.+1) (sl k.+1) (sb k) = (i, old) ->
  [/\ (k <= i <= k + fuel)%N, old = sb i,
      (forall j, (k <= j < i)%N -> ~~ loop_condition cfg (sa j.+1) (sb j.+1) (sl j.+1) (sb j)) &
      i = (k + fuel)%N \/ loop_condition cfg (sa i.+1) (sb i.+1) (sl i.+1) (sb i)].
Proof.
elim: fuel => [|f IH] k i old /=.
  case E: (loop_condition _ _ _ _ _) => -[<- <-]; rewrite addn0; split; rewrite ?leqnn //; try (by left);
  by move=> j /andP[H1 H2]; move: (leq_ltn_trans H1 H2); rewrite ltnn.
case E: (loop_condition _ _ _ _ _) => [|].
  move=> [<- <-]; split; rewrite ?leqnn ?leq_addr //; last by right.
  by move=> j /andP[H1 H2]; move: (leq_ltn_trans H1 H2); rewrite ltnn.
rewrite -/(admm_loop np cfg Lo q f k.+1 (sa k.+2) (sb k.+2) (sl k.+2) (sb k.+1)).
move/(IH k.+1) => [/andP[H1 H2] H3 H4 H5]; rewrite addnS -addSn; split=> //.
  by rewrite (ltnW H1).
move=> j /andP[Hj Hi]; case: (ltngtP k j) => [H|H|H].
- by apply: H4; rewrite H.
- by move: Hj; rewrite leqNgt H.
by rewrite -H E.
Qed.

Lemma find_zero_first Z : 0 < sp_zero cfg -> find_zero_amplitudes np cfg Lo q = (0%N, Z) -> Z = setT.
Proof.
move=> H0; rewrite /find_zero_amplitudes -/z.
have -> : update np cfg Lo q z z = (sa 1%N, sb 1%N, sl 1%N) by [].
have {1}-> : z = sb 0%N by [].
case E: (admm_loop _ _ _ _ _ _ _ _ _ _)=> [k old] [Hk <-]; subst k.
have [_ -> _ _] := loop_spec E.
by apply/setP=> j; rewrite !inE /sb /admm_seq /= ffunE mxE normr0 H0.
Qed.

Hypothesis LL : Lo *m adj Lo = P + (sp_rho cfg / 2%:R)%:M.
Hypothesis HL : forall y, solve_ok np Lo y.
Hypothesis HL' : forall y, solve_ok np (adj Lo) y.

Lemma alpha_solves b l : exists av, update_alpha np cfg Lo q (of_cV b) (of_cV l) = of_cV av /\
  P *m av + (sp_rho cfg / 2%:R) *: av = q + (sp_rho cfg / 2%:R) *: (b - (sp_rho cfg)^-1 *: l).
Proof.
have E x : clean (of_cV x) = Some x :> option 'cV[C]_r by apply: clean_some=> i; rewrite ffunE.
rewrite /update_alpha !E; eexists; split; first by [].
set y := q + _; rewrite -[(_ / _) *: np_solve _ _ _]mul_scalar_mx -mulmxDl -LL -mulmxA HL' HL //.
Qed.

Lemma seq_run : admm_run cfg P q sa sb sl.
Proof.
split.
- by move=> i; rewrite /sb /sl /admm_seq /= /z !ffunE mxE.
- move=> k bv lv Hb Hl.
  have [av [E1 E2]] := alpha_solves bv lv; exists av; split=> // i.
  have -> : sa k.+1 = update_alpha np cfg Lo q (sb k) (sl k) by [].
  have -> : sb k = of_cV bv by apply/ffunP=> j; rewrite Hb ffunE.
  have -> : sl k = of_cV lv by apply/ffunP=> j; rewrite Hl ffunE.
  by rewrite E1 ffunE.
- move=> k i H j; have -> : sa k.+1 = update_alpha np cfg Lo q (sb k) (sl k) by [].
  rewrite /update_alpha; case: H=> /clean_none ->; first by rewrite ffunE.
  by case: (clean _) => [b|]; rewrite ffunE.
- move=> k i av lv Ha Hl v t; have -> : sb k.+1 = update_beta cfg (sa k.+1) (sl k) by [].
  by rewrite /update_beta ffunE Ha Hl soft_form.
- move=> k i H; have -> : sb k.+1 = update_beta cfg (sa k.+1) (sl k) by [].
  rewrite /update_beta ffunE; case: H=> ->; first by [].
  by case: (sa _ _).
- move=> k i av bv lv Ha Hb Hl; have -> : sl k.+1 = update_lagrangian cfg (sa k.+1) (sb k.+1) (sl k) by [].
  by rewrite /update_lagrangian ffunE Ha Hb Hl mulrC.
move=> k i H; have -> : sl k.+1 = update_lagrangian cfg (sa k.+1) (sb k.+1) (sl k) by [].
rewrite /update_lagrangian ffunE; case: H=> [->|[->|->]] //; case: (sa _ _)=> // x.
by case: (sb _ _).
Qed.
Lemma cond_converged k : loop_condition cfg (sa k.+1) (sb k.+1) (sl k.+1) (sb k) <-> converged cfg sa sb sl k.+1.
Proof.
rewrite /loop_condition /converged /=; split.
  case Ea: (clean (sa _))=> [av|] //; case Eb: (clean (sb _))=> [bv|] //; case El: (clean (sl _))=> [lv|] //.
  case Eo: (clean (sb _))=> [ov|] // /andP[H1 H2].
  by exists av, bv, lv, ov; split=> //; split=> //; exact: clean_inv.
move=> [av [bv [lv [ov [[Ha Hb Hl Ho] [H1 H2]]]]]].
by rewrite (clean_some Ha) (clean_some Hb) (clean_some Hl) (clean_some Ho) H1 H2.
Qed.

Lemma find_zero_spec i Z : find_zero_amplitudes np cfg Lo q = (i, Z) ->
  exists a b l, admm_run cfg P q a b l /\
  [/\ (i <= sp_max cfg)%N, (forall j, (j < i)%N -> ~ converged cfg a b l j.+1),
      i = sp_max cfg \/ converged cfg a b l i.+1 &
      forall j, (j \in Z) <-> exists x, b i j = Some x /\ `|x| < sp_zero cfg].
Proof.
rewrite /find_zero_amplitudes -/z => H; exists sa, sb, sl; split; first exact: seq_run.
move: H; have -> : update np cfg Lo q z z = (sa 1%N, sb 1%N, sl 1%N) by [].
have {1}-> : z = sb 0%N by [].
case E: (admm_loop _ _ _ _ _ _ _ _ _ _)=> [k old] [Hk HZ]; subst k.
have [H1 H2 H3 H4] := loop_spec E; rewrite add0n in H1 H4; split=> //.
- by move=> j Hj /cond_converged; apply/negP; exact: H3.
- by case: H4=> H; [left|right; apply/cond_converged].
move=> j; rewrite -HZ inE H2; split; last by move=> [x [-> ?]].
by case Ex: (sb i j)=> [x|] // Hx; exists x.
Qed.
End Loop.

(** a run whose data has no component along the modes: NaN in the first update already *)
Section Nan.
Variable C : numClosedFieldType.
Lemma run_zero (cfg : sp_cfg C) r (P : 'M[C]_r) a b l : 0 < sp_rho cfg ->
  (forall x : 'cV[C]_r, P *m x + (sp_rho cfg / 2%:R) *: x = 0 -> x = 0) ->
  admm_run cfg P 0 a b l -> forall k i, b k.+1 i = None.
Proof.
move=> Hr Hi R.
have st := run_start R.
have b1 i : b 1%N i = None.
  have [] := run_alpha R (k := 0%N) (bv := 0) (lv := 0).
  - by move=> j; rewrite (st j).1 mxE.
  - by move=> j; rewrite (st j).2 mxE.
  move=> av [Ha]; rewrite scaler0 subr0 scaler0 addr0 => /Hi a0.
  have := run_beta R (Ha i) (st i).2; rewrite /= => ->.
  by rewrite a0 mxE mul0r addr0 eqxx.
elim=> [|k IH] i; first exact: b1.
by apply: (run_beta_nan R); left; apply: (run_alpha_nan R (k := k.+1) (i := i)); left.
Qed.
End Nan.
