(** * Proofs about the eigenvalue constraints of Model_BOP.v *)
From mathcomp Require Import all_ssreflect all_fingroup all_algebra.
From Verif Require Import Py LinAlg Model_Operator Spec_Operator Model_BOP Spec_BOP.
Set Implicit Arguments. Unset Strict Implicit. Unset Printing Implicit Defensive.
Import Order.TTheory GRing.Theory Num.Theory.
Local Open Scope ring_scope.

Section Eig.
Variable C : numClosedFieldType.
Implicit Type x : ext C.

Lemma min_exists r (f : 'I_r -> C) : (forall i, f i \is Num.real) -> (0 < r)%N -> exists i, forall j, f i <= f j.
Proof.
move=> R P.
have [i H] : exists i, forall j, j \in enum 'I_r -> f i <= f j.
  elim: (enum 'I_r)=> [|a l [i H]]; first by exists (Ordinal P).
  case: (real_leP (R a) (R i))=> [L|L].
    by exists a=> j; rewrite inE => /orP [/eqP ->|/H]; [exact: lexx | exact: le_trans].
  exists i=> j; rewrite inE => /orP [/eqP ->|/H //]; exact: ltW.
by exists i=> j; apply: H; rewrite mem_enum.
Qed.

Lemma argminP r (f : 'I_r -> C) i : argmin f = Some i -> forall j, f i <= f j.
Proof. by rewrite /argmin; case: pickP=> // k /forallP H [<-]. Qed.
Lemma argmin_some r (f : 'I_r -> C) : (forall i, f i \is Num.real) -> (0 < r)%N -> exists i, argmin f = Some i.
Proof.
move=> R P; rewrite /argmin; case: pickP=> [i _|N]; first by exists i.
have [i H] := min_exists R P.
by have /forallP := N i; case; move=> j; apply: H.
Qed.
Lemma argmin_uniq r (f : 'I_r -> C) i : (forall j, j != i -> f i < f j) -> argmin f = Some i.
Proof.
move=> H; rewrite /argmin; case: pickP=> [k /forallP K|N].
  congr Some; apply/eqP/negPn/negP=> ki; have := H k ki; by rewrite (le_gtF (K i)).
have /forallP := N i; case=> j; have [->|/H /ltW //] := eqVneq j i; exact: lexx.
Qed.

Lemma set_entryE r (v : 'rV[C]_r) i a j : set_entry v i a 0 j = if j == i then a else v 0 j.
Proof. by rewrite mxE. Qed.

(** ** The loop *)
Lemma sgr_real (z : C) : Num.sg z \is Num.real.
Proof. by rewrite sgr_def rpredMn // rpredX // rpredN rpred1. Qed.
Lemma pair_im_real (a b c : C) : pair_im a b * Num.sg c \is Num.real.
Proof. by rewrite rpredM ?sgr_real // rpredM ?rpredD ?rpredV ?normr_real ?rpred_nat. Qed.
Lemma pair_re_real (a b : C) : pair_re a b \is Num.real.
Proof. by rewrite rpredM ?rpredD ?rpredV ?rpred_nat // Creal_Re. Qed.
Definition cand (a b : C) : C := pair_re a b + 'i * (pair_im a b * Num.sg ('Im a)).
Lemma cand_re a b : 'Re (cand a b) = ('Re a + 'Re b) / 2%:R.
Proof. by rewrite /cand Re_rect ?pair_re_real ?pair_im_real. Qed.
Lemma cand_im a b : 'Im (cand a b) = Num.sg ('Im a) * ((`|'Im a| + `|'Im b|) / 2%:R).
Proof. by rewrite /cand Im_rect ?pair_re_real ?pair_im_real // mulrC. Qed.
Lemma candC (a b : C) : pair_re a b = pair_re b a /\ pair_im a b = pair_im b a.
Proof. by split; rewrite /pair_re /pair_im addrC. Qed.

Definition nearest r (e : 'rV[C]_r) (i k : 'I_r) : Prop := forall j, `|e 0 k - (e 0 i)^*| <= `|e 0 j - (e 0 i)^*|.

Lemma pair_loopP x (P : pop_ok x) fuel r (e : 'rV[C]_r) (un : seq 'I_r) acc e' : uniq un -> (size un <= fuel)%N ->
  pair_loop x fuel e un acc = Ok e' ->
  exists s : 'I_r -> 'I_r,
    [/\ forall i, i \notin un -> s i = i /\ e' 0 i = acc 0 i,
        forall i, i \in un -> [/\ s i \in un, s (s i) = i, s i != i & e' 0 i = cand (e 0 i) (e 0 (s i))] &
        forall i, i \in un -> nearest e i (s i) \/ nearest e (s i) i].
Proof.
elim: fuel un acc=> [|fuel IH] [|i0 un] acc U F //=; only 1-2: by move=> [<-]; exists id.
set un0 := i0 :: un; set i1 := x_pop x i0 un0.
have I1 : i1 \in un0 by apply: P; rewrite inE eqxx.
case A : (argmin _)=> [i2|//]; move/argminP in A.
case: ifP=> // I2'; have {I2'} I2 : i2 \in rem i1 un0 by exact: I2'.
have U1 : uniq (rem i1 un0) by apply: rem_uniq.
have U2 : uniq (rem i2 (rem i1 un0)) by apply: rem_uniq.
have D : i2 != i1 by move: I2; rewrite mem_rem_uniq // !inE => /andP [].
have I2' : i2 \in un0 by move: I2; rewrite mem_rem_uniq // !inE => /andP [].
have M i : (i \in rem i2 (rem i1 un0)) = [&& i != i2, i != i1 & i \in un0].
  by rewrite (mem_rem_uniq _ U1) !inE (mem_rem_uniq _ U) !inE.
have F2 : (size (rem i2 (rem i1 un0)) <= fuel)%N.
  by rewrite size_rem // size_rem //=; move: F; rewrite /= ltnS; apply: leq_trans; rewrite leq_pred.
move=> /(IH _ _ U2 F2) [s [S0 S1 S2]].
exists (fun i => if i == i1 then i2 else if i == i2 then i1 else s i).
have [C1 C2] := candC (e 0 i1) (e 0 i2).
have N1 : i1 \notin rem i2 (rem i1 un0) by rewrite M eqxx andbF.
have N2 : i2 \notin rem i2 (rem i1 un0) by rewrite M eqxx.
have V1 : e' 0 i1 = cand (e 0 i1) (e 0 i2).
  by have [_ ->] := S0 _ N1; rewrite !set_entryE eq_sym (negbTE D) eqxx.
have V2 : e' 0 i2 = cand (e 0 i2) (e 0 i1).
  by have [_ ->] := S0 _ N2; rewrite !set_entryE eqxx /cand C1 C2.
split=> i.
- move=> Ni; have n1 : i != i1 by apply: contraNneq Ni=> ->.
  have n2 : i != i2 by apply: contraNneq Ni=> ->.
  rewrite (negbTE n1) (negbTE n2); have [|-> ->] := S0 i; first by rewrite M (negbTE Ni) !andbF.
  by rewrite !set_entryE (negbTE n2) (negbTE n1).
- move=> Ii; have [->|n1] := eqVneq i i1; first by rewrite (negbTE D) !eqxx.
  have [->|n2] := eqVneq i i2; first by rewrite eqxx eq_sym D.
  have [|] := S1 i; first by rewrite M n1 n2.
  rewrite M => /and3P [n3 n4 Is] E N V.
  by rewrite (negbTE n4) (negbTE n3).
move=> Ii; have [->|n1] := eqVneq i i1; first by left.
have [->|n2] := eqVneq i i2; first by right.
by apply: S2; rewrite M n1 n2.
Qed.

Lemma conj_pairsP x (P : pop_ok x) r (e e' : 'rV[C]_r) : conj_pairs x e = Ok e' -> exists s, pairing e e' s.
Proof.
rewrite /conj_pairs; case: ifP=> O.
  case A : (argmin _)=> [i0|//]; move/argminP in A.
  have U : uniq (enum 'I_r) by rewrite enum_uniq.
  move=> /(pair_loopP P) [||s [S0 S1 S2]].
  - exact: rem_uniq.
  - by rewrite size_rem ?mem_enum // -cardE card_ord leq_pred.
  have M i : (i \in rem i0 (enum 'I_r)) = (i != i0) by rewrite mem_rem_uniq // !inE mem_enum andbT.
  have [s0 e0] : s i0 = i0 /\ e' 0 i0 = 'Re (e 0 i0).
    by have [|-> ->] := S0 i0; rewrite ?M ?eqxx // set_entryE eqxx.
  have N i : s i != i -> i \in rem i0 (enum 'I_r) by rewrite M; apply: contraNneq=> ->; rewrite s0.
  have Y i : s i = i -> i = i0.
    move=> E; apply/eqP/negPn/negP=> n; have [|_ _] := S1 i; rewrite ?M //; by rewrite E eqxx.
  exists s; split.
  + move=> i; have [->|n] := eqVneq i i0; first by rewrite !s0.
    by have [|] := S1 i; rewrite ?M.
  + by rewrite O; apply/esym/existsP; exists i0; rewrite s0.
  + by move=> i j /Y -> /Y ->.
  + by move=> i /Y ->.
  + by move=> i /N /S1 [_ _ _ ->]; rewrite cand_re.
  + by move=> i /N /S1 [_ _ _ ->]; rewrite cand_im.
  by move=> i /N /S2 [H|H]; [left|right].
move=> /(pair_loopP P) [||s [S0 S1 S2]]; rewrite ?enum_uniq // -?cardE ?card_ord //.
have N i : i \in enum 'I_r by rewrite mem_enum.
exists s; split.
+ by move=> i; have [|] := S1 i.
+ by rewrite O; apply/esym/existsP=> [[i /eqP E]]; have [|_ _] := S1 i => //; rewrite E eqxx.
+ by move=> i j E; have [|_ _] := S1 i => //; rewrite E eqxx.
+ by move=> i E; have [|_ _] := S1 i => //; rewrite E eqxx.
+ by move=> i _; have [|_ _ _ ->] := S1 i => //; rewrite cand_re.
+ by move=> i _; have [|_ _ _ ->] := S1 i => //; rewrite cand_im.
by move=> i _; have [|H|H] := S2 i => //; [left|right].
Qed.

(** ** Consequences *)
Lemma pairing_conj r (e e' : 'rV[C]_r) s : pairing e e' s ->
  (forall i, s i != i -> Num.sg ('Im (e 0 (s i))) = - Num.sg ('Im (e 0 i))) ->
  forall i, e' 0 (s i) = (e' 0 i)^*.
Proof.
move=> P H i; have [E|N] := eqVneq (s i) i.
  by rewrite E; have [-> _] := pa_real P E; rewrite conj_Creal // Creal_Re.
have N' : s (s i) != s i by rewrite (inj_eq (can_inj (pa_inv P))).
rewrite [LHS]Crect [e' 0 i]Crect conjC_rect ?Creal_Re ?Creal_Im //.
rewrite !(pa_re P) // !(pa_im P) // (pa_inv P) H //.
by rewrite [X in X / _]addrC [`|'Im (e 0 (s i))| + _]addrC mulNr mulrN.
Qed.

Lemma argmin_partner r (e : 'rV[C]_r) i k : injective (fun i => e 0 i) -> e 0 k = (e 0 i)^* ->
  argmin (fun j => `|e 0 j - (e 0 i)^*|) = Some k.
Proof.
move=> I E; apply: argmin_uniq=> j N; rewrite E subrr normr0 normr_gt0 subr_eq0 -E.
by apply: contra N=> /eqP /I ->.
Qed.

Lemma cand_conj a : cand a (a^*) = a.
Proof.
have H (z : C) : (z + z) / 2%:R = z by rewrite -mulr2n -(mulr_natr z) mulfK // pnatr_eq0.
by rewrite [RHS]Crect /cand /pair_re /pair_im Re_conj Im_conj normrN !H [_ * Num.sg _]mulrC -(realEsg (Creal_Im a)).
Qed.

Lemma pair_loopS x fuel r (e : 'rV[C]_r) i0 (un : seq 'I_r) acc :
  pair_loop x fuel.+1 e (i0 :: un) acc =
  let i1 := x_pop x i0 (i0 :: un) in
  match argmin (fun j => `|e 0 j - (e 0 i1)^*|) with
  | Some i2 => if i2 \in rem i1 (i0 :: un) then
      pair_loop x fuel e (rem i2 (rem i1 (i0 :: un)))
        (set_entry (set_entry acc i1 (cand (e 0 i1) (e 0 i2))) i2 (cand (e 0 i2) (e 0 i1)))
      else Err ValueError
  | None => Err ValueError
  end.
Proof.
rewrite /=; case: (argmin _)=> // i2; have [C1 C2] := candC (e 0 (x_pop x i0 (i0 :: un))) (e 0 i2).
by rewrite /cand C1 C2.
Qed.

Lemma pair_loop_exact x (P : pop_ok x) fuel r (e : 'rV[C]_r) (p : 'I_r -> 'I_r) (un : seq 'I_r) acc :
  injective (fun i => e 0 i) -> (forall i, e 0 (p i) = (e 0 i)^*) -> uniq un -> (size un <= fuel)%N ->
  (forall i, i \in un -> p i \in un /\ p i != i) ->
  pair_loop x fuel e un acc = Ok (\row_i (if i \in un then e 0 i else acc 0 i)).
Proof.
move=> I Hp; have pp i : p (p i) = i by apply: I; rewrite /= !Hp conjCK.
elim: fuel un acc=> [|fuel IH] [|i0 un] acc U F Hu; only 1-3: by [|rewrite /=; congr Ok; apply/rowP=> i; rewrite mxE].
set un0 := i0 :: un; set i1 := x_pop x i0 un0.
have I1 : i1 \in un0 by apply: P; rewrite inE eqxx.
have [I2 D] := Hu _ I1.
have I2' : p i1 \in rem i1 un0 by rewrite mem_rem_uniq // !inE D.
have E : pair_loop x fuel.+1 e un0 acc = pair_loop x fuel e (rem (p i1) (rem i1 un0))
   (set_entry (set_entry acc i1 (cand (e 0 i1) (e 0 (p i1)))) (p i1) (cand (e 0 (p i1)) (e 0 i1))).
  by rewrite pair_loopS /= -/un0 -/i1 (argmin_partner I (Hp i1)) (I2' : p i1 \in _).
have U1 : uniq (rem i1 un0) by apply: rem_uniq.
have U2 : uniq (rem (p i1) (rem i1 un0)) by apply: rem_uniq.
have M i : (i \in rem (p i1) (rem i1 un0)) = [&& i != p i1, i != i1 & i \in un0].
  by rewrite (mem_rem_uniq _ U1) !inE (mem_rem_uniq _ U) !inE.
rewrite E IH //.
- congr Ok; apply/rowP=> i; rewrite [LHS]mxE [RHS]mxE M !set_entryE.
  have [->|n2] := eqVneq i (p i1).
    by rewrite I2 /= -[X in cand _ X]conjCK -(Hp i1) cand_conj.
  by have [->|n1] := eqVneq i i1; rewrite ?I1 /= ?Hp ?cand_conj.
- by rewrite size_rem // size_rem //=; move: F; rewrite /= ltnS; apply: leq_trans; rewrite leq_pred.
move=> i; rewrite !M => /and3P [n2 n1 Ii]; have [J1 J2] := Hu _ Ii; split=> //.
rewrite J1 andbT; apply/andP; split.
  by apply: contra n1=> /eqP /(can_inj pp) ->.
by apply: contra n2=> /eqP <-; rewrite pp.
Qed.

Lemma conj_pairs_exact x (P : pop_ok x) r (e : 'rV[C]_r) : clean_spectrum e -> conj_pairs x e = Ok e.
Proof.
move=> [I Hc R].
pose p i := odflt i [pick j | e 0 j == (e 0 i)^*].
have Hp i : e 0 (p i) = (e 0 i)^*.
  by rewrite /p; case: pickP=> [j /eqP //|N]; have [j /eqP] := Hc i; rewrite N.
have Fx i : (p i == i) = (e 0 i \is Num.real).
  by rewrite CrealE -Hp; apply/eqP/eqP=> [->|/I].
rewrite /conj_pairs; move: R; case: ifP=> O R.
  have /card1P [i0 H0] : #|[pred i | e 0 i \is Num.real]| == 1%N by rewrite R.
  have R0 : e 0 i0 \is Num.real by have := H0 i0; rewrite !inE eqxx.
  have N0 i : i != i0 -> e 0 i \isn't Num.real by move=> n; have := H0 i; rewrite !inE (negbTE n) => ->.
  have -> : argmin (fun j => `|'Im (e 0 j)|) = Some i0.
    apply: argmin_uniq=> j n; have /Creal_ImP -> := R0; rewrite normr0 normr_gt0.
    by apply: contra (N0 j n)=> /eqP H; apply/Creal_ImP.
  have M i : (i \in rem i0 (enum 'I_r)) = (i != i0) by rewrite mem_rem_uniq ?enum_uniq // !inE mem_enum andbT.
  rewrite (pair_loop_exact P (p := p)) ?rem_uniq ?enum_uniq //.
  - congr Ok; apply/rowP=> i; rewrite [LHS]mxE M set_entryE; have [->|//] := eqVneq i i0.
    by rewrite (Creal_ReP _ R0).
  - by rewrite size_rem ?mem_enum // -cardE card_ord leq_pred.
  move=> i; rewrite !M=> n; rewrite Fx (N0 i n); split=> //.
  by apply: contra n=> /eqP E; apply/eqP/I; rewrite /= -[e 0 i]conjCK -(Hp i) E conj_Creal.
have N0 i : e 0 i \isn't Num.real.
  apply/negP=> Ri; have /card0_eq := R; move/(_ i); by rewrite !inE Ri.
rewrite (pair_loop_exact P (p := p)) ?enum_uniq // -?cardE ?card_ord //.
  by congr Ok; apply/rowP=> i; rewrite [LHS]mxE mem_enum.
by move=> i _; rewrite mem_enum Fx.
Qed.

(** what was in the memory np.empty returned does not matter *)
Lemma pair_loop_acc x x' fuel r (e : 'rV[C]_r) (un : seq 'I_r) (acc acc' : 'rV[C]_r) : x_pop x = x_pop x' -> pop_ok x -> uniq un ->
  (size un <= fuel)%N -> (forall i, i \notin un -> acc 0 i = acc' 0 i) ->
  pair_loop x fuel e un acc = pair_loop x' fuel e un acc'.
Proof.
move=> X P; elim: fuel un acc acc'=> [|fuel IH] [|i0 un] acc acc' U F H; only 1-3: by [|rewrite /=; congr Ok; apply/rowP=> i; rewrite H].
rewrite !pair_loopS -X; set un0 := i0 :: un; set i1 := x_pop x i0 un0; cbv zeta.
have I1 : i1 \in un0 by apply: P; rewrite inE eqxx.
case A : (argmin _)=> [i2|//]; case: ifP=> // I2.
have U1 : uniq (rem i1 un0) by apply: rem_uniq.
apply: IH; first exact: rem_uniq.
  by rewrite size_rem // size_rem //=; move: F; rewrite /= ltnS; apply: leq_trans; rewrite leq_pred.
move=> i; rewrite (mem_rem_uniq _ U1) !inE (mem_rem_uniq _ U) [i \in _]inE -/un0 !set_entryE.
case: eqP=> //= _; case: eqP=> //= _; exact: H.
Qed.
Lemma conj_pairs_junk x x' r (e : 'rV[C]_r) : x_pop x = x_pop x' -> pop_ok x -> conj_pairs x e = conj_pairs x' e.
Proof.
move=> X P; rewrite /conj_pairs; case: ifP=> O; last first.
  by apply: pair_loop_acc; rewrite ?enum_uniq // -?cardE ?card_ord // => i; rewrite mem_enum.
case: (argmin _)=> [i0|//]; apply: pair_loop_acc=> //; first by rewrite rem_uniq // enum_uniq.
  by rewrite size_rem ?mem_enum // -cardE card_ord leq_pred.
move=> i; rewrite mem_rem_uniq ?enum_uniq // !inE mem_enum andbT negbK !set_entryE=> ->; by [].
Qed.

Lemma conj_pairs_real x (P : pop_ok x) r (e : 'rV[C]_r) : (1 < r)%N -> injective (fun i => e 0 i) ->
  (forall i, e 0 i \is Num.real) -> conj_pairs x e = Err ValueError.
Proof.
move=> R I H.
have L fuel (un : seq 'I_r) acc : (0 < size un <= fuel)%N -> uniq un -> pair_loop x fuel e un acc = Err ValueError.
  case: fuel un=> [|fuel] [|i0 un] // _ U.
  rewrite pair_loopS; set un0 := i0 :: un; set i1 := x_pop x i0 un0; cbv zeta.
  rewrite (argmin_partner (k := i1) I) ?conj_Creal //.
  by rewrite (mem_rem_uniq _ U) !inE eqxx.
rewrite /conj_pairs; case: ifP=> _.
  case: (argmin _)=> [i0|//]; apply: L; last by rewrite rem_uniq // enum_uniq.
  by rewrite size_rem ?mem_enum // -cardE card_ord leq_pred andbT -subn1 subn_gt0.
by apply: L; rewrite ?enum_uniq // -cardE card_ord leqnn (ltnW R).
Qed.

(** ** stable, imag *)
Lemma stableE r (e : 'rV[C]_r) j : make_stable e 0 j = if 0 < 'Re (e 0 j) then 'i * 'Im (e 0 j) else e 0 j.
Proof. by rewrite mxE. Qed.
Lemma imagE r (e : 'rV[C]_r) j : make_imag e 0 j = 'i * 'Im (e 0 j). Proof. by rewrite mxE. Qed.
Lemma Re_iIm (z : C) : 'Re ('i * 'Im z) = 0.
Proof. by have := @Re_rect C 0 ('Im z); rewrite add0r; apply; rewrite ?rpred0 // Creal_Im. Qed.
Lemma Im_iIm (z : C) : 'Im ('i * 'Im z) = 'Im z.
Proof. by have := @Im_rect C 0 ('Im z); rewrite add0r; apply; rewrite ?rpred0 // Creal_Im. Qed.
Lemma stable_re r (e : 'rV[C]_r) j : 'Re (make_stable e 0 j) = if 0 < 'Re (e 0 j) then 0 else 'Re (e 0 j).
Proof. by rewrite stableE; case: ifP=> // _; rewrite Re_iIm. Qed.
Lemma stable_im r (e : 'rV[C]_r) j : 'Im (make_stable e 0 j) = 'Im (e 0 j).
Proof. by rewrite stableE; case: ifP=> // _; rewrite Im_iIm. Qed.
Lemma imag_re r (e : 'rV[C]_r) j : 'Re (make_imag e 0 j) = 0. Proof. by rewrite imagE Re_iIm. Qed.
Lemma imag_im r (e : 'rV[C]_r) j : 'Im (make_imag e 0 j) = 'Im (e 0 j). Proof. by rewrite imagE Im_iIm. Qed.
Lemma stable_le0 r (e : 'rV[C]_r) j : 'Re (make_stable e 0 j) <= 0.
Proof. by rewrite stable_re; case: ifP=> //; rewrite real_ltNge ?rpred0 ?Creal_Re // => /negbFE. Qed.
Lemma stable_id r (e : 'rV[C]_r) : (forall j, 'Re (e 0 j) <= 0) -> make_stable e = e.
Proof. by move=> H; apply/rowP=> j; rewrite stableE (le_gtF (H j)). Qed.

(** 'stable' and 'imag' commute with conjugation of entries *)
Lemma stable_conj r (e : 'rV[C]_r) i j : e 0 j = (e 0 i)^* -> make_stable e 0 j = (make_stable e 0 i)^*.
Proof.
move=> E; rewrite !stableE E Re_conj Im_conj; case: ifP=> // _.
by rewrite rmorphM conjCi /= conj_Creal ?Creal_Im // mulrN mulNr.
Qed.
Lemma imag_conj r (e : 'rV[C]_r) i j : e 0 j = (e 0 i)^* -> make_imag e 0 j = (make_imag e 0 i)^*.
Proof. by move=> E; rewrite !imagE E Im_conj rmorphM conjCi /= conj_Creal ?Creal_Im // mulrN mulNr. Qed.
End Eig.
