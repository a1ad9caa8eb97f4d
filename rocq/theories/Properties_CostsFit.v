(** * C56: what COSTS.fit does with its windows and its options *)
From Coq Require Import QArith.
From mathcomp Require Import all_ssreflect all_fingroup all_algebra.
From Verif Require Import Py LinAlg Model_Operator Model_BOP Model_CostsWin Model_Costs Spec_Costs Spec_CostsWin.
From Verif Require Import Proofs_CostsWin Proofs_Costs Proofs_CostsFit Proofs_CostsLoop.
From Verif Require Model_Utils.
Set Implicit Arguments. Unset Strict Implicit. Unset Printing Implicit Defensive.
Import Order.TTheory GRing.Theory Num.Theory.
Local Open Scope ring_scope.
Local Notation "# n" := (BinInt.Z.of_nat n) (at level 5, format "# n").

Section C56.
Variable C : numClosedFieldType.
Variable np : numpy C.
Variable x : ext C.
Variable y : cext C.

(** Specification.  A window as it is decomposed: the mean of each variable subtracted, the corners rounded. *)
Definition prepared (sharp : C) n w (D : 'M[C]_(n, w)) : 'M[C]_(n, w) :=
  \matrix_(i, j) ((D i j - (\sum_l D i l) / w%:R) *
    (y_tanh y (sharp * (j%:R / w%:R)) - y_tanh y (sharp * (j%:R - w%:R - 1) / w%:R) - 1)).
(** the time since the first instant of the window *)
Definition elapsed w (t : 'rV[C]_w) : 'rV[C]_w := \row_j (t 0 j - if insub 0%N is Some z then t 0 z else 0).
(** the rank found for a window, made even by force_even_eigs, at most max_rank *)
Definition asked_rank (g : ccfg C) n w (D : 'M[C]_(n, w)) rk : nat :=
  let k := np_rank np (np_svd np D).1.2 n w rk in
  let k' := (k + (cc_even g && odd k))%N in
  if cc_max g is Some m then (if (k' <= m)%N then k' else m) else k'.
(** [r] holds what BOPDMD(svd_rank=rk, proj_basis=basis, init_alpha=a, ...) finds on the window [l] of the
    data, once its mean is subtracted, its corners are rounded and its time starts at zero; with that mean and the times. *)
Definition bopdmd_on (fuel n : nat) (cfg : bop_cfg C) (rk : Model_Utils.rank_arg) (basis : option {q & 'M[C]_(n, q)})
    (a : option {r & 'rV[C]_r}) (sharp : C) T (X : 'M[C]_(n, T)) (t : 'rV[C]_T) w (l : seq nat) (r : wres C n w) : Prop :=
  exists d q r' (u : bop_op C n q r'),
    [/\ bop_fit np x fuel (Bop cfg rk basis a None None None) (prepared sharp (cut X w l)) true (elapsed (cut t w l)) = Some (d, Ok tt),
        b_op d = Some (Some (existT _ q (existT _ r' u)))
      & r = WRes (bo_modes u) (bo_eigs u) (bo_b u) (wmean (cut X w l)) (cut t w l)].

Lemma winputE sharp n w (D : 'M[C]_(n, w)) : winput y sharp D = prepared sharp D.
Proof. by apply/matrixP => i j; rewrite !mxE. Qed.
Lemma window_rankE g n w (D : 'M[C]_(n, w)) rk : window_rank np g D rk = asked_rank g D rk.
Proof.
rewrite /window_rank /asked_rank /rank_of; set k := np_rank _ _ _ _ _.
have -> : (if cc_even g && odd k then k.+1 else k) = (k + (cc_even g && odd k))%N by case: ifP; rewrite ?addn1 ?addn0.
case: (cc_max g) => // m; move: (k + _)%N => j; by case: leqP.
Qed.
Lemma bopdmd_on_det fuel n cfg rk basis a sharp T (X : 'M[C]_(n, T)) t T' (X' : 'M[C]_(n, T')) t' w l l' (r r' : wres C n w) :
  cut X w l = cut X' w l' -> cut t w l = cut t' w l' ->
  bopdmd_on fuel cfg rk basis a sharp X t l r -> bopdmd_on fuel cfg rk basis a sharp X' t' l' r' -> r = r'.
Proof.
move=> EX Et [d [q [k [u [F O ->]]]]] [d' [q' [k' [u' [F' O' ->]]]]].
move: F' O'; rewrite -EX -Et F => -[<-]; rewrite O => E.
pose g (o : option (option {q & {r & bop_op C n q r}})) : wres C n w :=
  if o is Some (Some (existT _ (existT _ v))) then WRes (bo_modes v) (bo_eigs v) (bo_b v) (wmean (cut X w l)) (cut t w l)
  else WRes (bo_modes u) (bo_eigs u) (bo_b u) (wmean (cut X w l)) (cut t w l).
exact: (congr1 g E).
Qed.

Lemma stores_local fuel n (g : ccfg C) (kw : kwargs C n) sharp T (X : 'M[C]_(n, T)) t w pre rk a l (r : wres C n w) : ~~ cc_global g ->
  stores np x y fuel g kw sharp X t pre rk (start_dmd kw rk a) l r ->
  bopdmd_on fuel (kw_cfg kw) (Model_Utils.RInt #(asked_rank g (prepared sharp (cut X w l)) rk)) (kw_basis kw) a sharp X t l r.
Proof.
move=> NG [d1 [F [q [r' [u [O [E _]]]]]]]; exists d1, q, r', u; split=> //.
by rewrite -F /fit_window /prepare (negbTE NG) window_rankE /input_of winputE.
Qed.

Lemma allocate_local n T (g g' : ccfg C) (kw kw' : kwargs C n) (X : 'M[C]_(n, T)) pre : ~~ cc_global g ->
  allocate np g kw X = Ok (g', kw', pre) -> g' = g /\ kw' = kw.
Proof.
move=> NG; rewrite /allocate (negbTE NG); case: (cc_rank g) => // rk; case: ifP => _.
  by do 2 case: ifP => // _; move=> [<- <-].
by case: (cc_max g) => [m|] [<- <-].
Qed.

(** the initial eigenvalues that COSTS hands to BOPDMD: the given ones if initialize_artificially is set, else none *)
Definition handed (c : ccfg C) (a : option {r & 'rV[C]_r}) : Prop :=
  (~~ cc_art c -> a = None) /\ (cc_art c -> forall a', cc_alpha c = Some a' -> a = Some a').
Lemma handedP (g : ccfg C) bs al : initialization g bs = Ok al -> handed g al.
Proof.
rewrite /initialization /handed; case: (cc_alpha g) => [a|].
  by move=> [<-]; case: (cc_art g); split=> // _ a' [<-].
case: bs => [b|]; last by move=> [<-].
by case: (cc_art g) => // -[<-].
Qed.

(** Without a global basis, and without use_last_freq, every window is decomposed on its own, as if by a new BOPDMD object
    with the options of the constructor. *)
Theorem C56_local fuel n (c : costs C n) kw sharp T (X : 'M[C]_(n, T)) (t : 'rV[C]_T) (w d : nat) c' kw' :
  (0 < w)%N -> (0 < d)%N -> rounds (y_fl y) #T #w -> ~~ cc_global (c_cfg c) -> ~~ cc_last (c_cfg c) ->
  fit np x y fuel c kw sharp X t #w #d = Some (c', kw', Ok tt) ->
  exists pre (rs : seq (wres C n w)) rk al, handed (c_cfg c) al /\
  [/\ c_fit c' = Some (Fitted pre rs), cc_rank (c_cfg c) = Some rk, size rs = size (listed T w d)
    & forall k r0, (k < size rs)%N -> let l := nth [::] (listed T w d) k in
        bopdmd_on fuel (kw_cfg kw) (Model_Utils.RInt #(asked_rank (c_cfg c) (prepared sharp (cut X w l)) rk)) (kw_basis kw)
          (if (0 < k)%N && cc_reset (c_cfg c) then None else al) sharp X t l (nth r0 rs k)].
Proof.
move=> w0 d0 R NG NL F; have [e [g [pre [al [rk [s1 [rs [[Al In Rk Lo ->] Wi]]]]]]]] := fit_inv w0 d0 R F.
have [Eg Ek] := allocate_local NG Al; rewrite {}Eg {}Ek in Al In Rk Lo *.
rewrite (eq_axiomK e) castmx_id in Lo; have [S H] := loop_local NG NL Lo.
exists pre, rs, rk, al; split; first exact: handedP In.
split=> // k r0; rewrite S => K l; apply: (stores_local (pre := pre)) => //; exact: H.
Qed.

(** So the result of a window depends on the data in that window only: two fits, of data of different lengths perhaps, that see
    the same data in one of their windows store the same result there. *)
Theorem C56_window_only fuel n (c c2 : costs C n) kw sharp (w d d2 T T2 : nat) (X : 'M[C]_(n, T)) (t : 'rV[C]_T)
    (X2 : 'M[C]_(n, T2)) (t2 : 'rV[C]_T2) c' c2' kw' kw2' f f2 k k2 (r0 : wres C n w) :
  (0 < w)%N -> (0 < d)%N -> (0 < d2)%N -> rounds (y_fl y) #T #w -> rounds (y_fl y) #T2 #w -> c_cfg c2 = c_cfg c ->
  ~~ cc_global (c_cfg c) -> ~~ cc_last (c_cfg c) -> ~~ cc_art (c_cfg c) ->
  fit np x y fuel c kw sharp X t #w #d = Some (c', kw', Ok tt) ->
  fit np x y fuel c2 kw sharp X2 t2 #w #d2 = Some (c2', kw2', Ok tt) ->
  (k < size (listed T w d))%N -> (k2 < size (listed T2 w d2))%N ->
  cut X w (nth [::] (listed T w d) k) = cut X2 w (nth [::] (listed T2 w d2) k2) ->
  cut t w (nth [::] (listed T w d) k) = cut t2 w (nth [::] (listed T2 w d2) k2) ->
  c_fit c' = Some f -> c_fit c2' = Some f2 -> exists rs rs2 pre pre2,
    [/\ f = @Fitted _ n w pre rs, f2 = @Fitted _ n w pre2 rs2 & nth r0 rs k = nth r0 rs2 k2].
Proof.
move=> w0 d0 d20 R R2 Ec NG NL NA F F2 K K2 EX Et Hf Hf2.
have [pre [rs [rk [al [[/(_ NA) -> _] [Ef Er S H]]]]]] := C56_local w0 d0 R NG NL F.
rewrite -Ec in NG NL NA; have [pre2 [rs2 [rk2 [al2 [[/(_ NA) -> _] [Ef2 Er2 S2 H2]]]]]] := C56_local w0 d20 R2 NG NL F2.
exists rs, rs2, pre, pre2; split; try by [move: Hf; rewrite Ef => -[] | move: Hf2; rewrite Ef2 => -[]].
move: Er2; rewrite Ec Er => -[Erk]; rewrite -Erk Ec in H2.
rewrite -S in K; rewrite -S2 in K2.
have A := H k r0 K; have := H2 k2 r0 K2; rewrite /= -EX if_same => B; rewrite /= if_same in A; exact: (bopdmd_on_det EX Et A B).
Qed.

(** With use_last_freq each window starts from the eigenvalues found in the window before. *)
Theorem C56_last fuel n (c : costs C n) kw sharp T (X : 'M[C]_(n, T)) (t : 'rV[C]_T) (w d : nat) c' kw' :
  (0 < w)%N -> (0 < d)%N -> rounds (y_fl y) #T #w -> ~~ cc_global (c_cfg c) -> cc_last (c_cfg c) ->
  fit np x y fuel c kw sharp X t #w #d = Some (c', kw', Ok tt) ->
  exists pre (rs : seq (wres C n w)) rk, [/\ c_fit c' = Some (Fitted pre rs), cc_rank (c_cfg c) = Some rk, size rs = size (listed T w d)
    & forall k r0, (k.+1 < size rs)%N -> let l := nth [::] (listed T w d) k.+1 in
        bopdmd_on fuel (kw_cfg kw) (Model_Utils.RInt #(asked_rank (c_cfg c) (prepared sharp (cut X w l)) rk)) (kw_basis kw)
          (Some (existT _ _ (wr_eigs (nth r0 rs k)))) sharp X t l (nth r0 rs k.+1)].
Proof.
move=> w0 d0 R NG La F; have [e [g [pre [al [rk [s1 [rs [[Al In Rk Lo ->] Wi]]]]]]]] := fit_inv w0 d0 R F.
have [Eg Ek] := allocate_local NG Al; rewrite {}Eg {}Ek in Al In Rk Lo *.
rewrite (eq_axiomK e) castmx_id in Lo; have [S H] := loop_last NG La Lo.
exists pre, rs, rk; split=> // k r0; rewrite S => K l; apply: (stores_local (pre := pre)) => //.
exact: (H k.+1 r0 K).
Qed.

(** With a global basis (the default) every window is projected on the leading left singular vectors of the whole data, and every
    window after the first starts from the initial eigenvalues of the FIRST window: use_last_freq and reset_alpha_init change
    nothing. *)
Theorem C56_global fuel n (c : costs C n) kw sharp T (X : 'M[C]_(n, T)) (t : 'rV[C]_T) (w d : nat) c' kw' rk0 :
  (0 < w)%N -> (0 < d)%N -> rounds (y_fl y) #T #w -> cc_global (c_cfg c) -> cc_rank (c_cfg c) = Some rk0 ->
  fit np x y fuel c kw sharp X t #w #d = Some (c', kw', Ok tt) ->
  exists pre (rs : seq (wres C n w)) (a1 : {r & 'rV[C]_r}),
    [/\ c_fit c' = Some (Fitted pre rs), size rs = size (listed T w d),
        kw_basis kw' = Some (existT _ _ (sv_U (compute_svd np X rk0))),
        (let rank := np_rank np (np_svd np X).1.2 n T in pre = rank (Model_Utils.RInt #(rank rk0)))
      & forall k r0, (k < size rs)%N -> exists rk a,
          ((0 < k)%N -> a = Some a1) /\
          bopdmd_on fuel (kw_cfg kw) rk (kw_basis kw') a sharp X t (nth [::] (listed T w d) k) (nth r0 rs k)].
Proof.
move=> w0 d0 R G Rk0 F; have [e [g [pre [al [rk [s1 [rs [[Al In Rk Lo ->] Wi]]]]]]]] := fit_inv w0 d0 R F.
move: Al; rewrite /allocate Rk0 G => -[Eg Ekw Epre].
have Gg : cc_global g by rewrite -Eg.
rewrite (eq_axiomK e) castmx_id in Lo.
have Eb : kw_basis kw' = Some (existT _ _ (sv_U (compute_svd np X rk0))) by rewrite -Ekw.
have [S [ra [_ H]]] := loop_global Gg Eb Lo.
exists pre, rs, (existT _ (projT1 ra) (push_in_place (bc_con (kw_cfg kw')) (projT2 ra))); split=> //.
move=> k r0; rewrite S => K.
have [d' [Hc [Hb Ha]] [d1 [Fw [q [r' [u [O [Er _]]]]]]]] := H k r0 K.
exists (b_rank d'), (b_alpha d'); split; first by case: k {K Fw Er} Ha => // k ->.
exists d1, q, r', u; split=> //; rewrite -Fw /fit_window /prepare Gg /input_of winputE.
have -> : kw_cfg kw = b_cfg d' by rewrite Hc -Ekw.
by rewrite Eb -Hb.
Qed.
(** the only use of use_last_freq and reset_alpha_init is lost *)
Definition set_freq_options (g : ccfg C) (last reset : bool) : ccfg C :=
  CCfg (cc_rank g) (cc_global g) (cc_art g) last (cc_alpha g) reset (cc_even g) (cc_max g).
Lemma loop_freq fuel n (g : ccfg C) (kw : kwargs C n) sharp T (X : 'M[C]_(n, T)) t w pre rk al ls d last reset : cc_global g ->
  fit_loop np x y fuel (set_freq_options g last reset) kw sharp X t w pre rk al ls d =
  fit_loop np x y fuel g kw sharp X t w pre rk al ls d.
Proof.
move=> G; elim: ls d => // l ls IH d /=; rewrite /prepare /= G.
case: (@fit_window _ np x fuel n w _ _ _) => [[d1 [[]|]]|] //; case: (b_op d1) => [[[q [r u]]|]|] //.
by rewrite /after /= G IH.
Qed.
Theorem C56_last_refuted fuel n (c : costs C n) kw sharp T (X : 'M[C]_(n, T)) m (t : 'rV[C]_m) (w d : BinNums.Z) last reset :
  cc_global (c_cfg c) ->
  let c2 := Costs (set_freq_options (c_cfg c) last reset) (c_win c) (c_fit c) (c_bands c) in
  match fit np x y fuel c kw sharp X t w d, fit np x y fuel c2 kw sharp X t w d with
  | Some (c', kw', r), Some (c2', kw2', r2) => [/\ c_fit c2' = c_fit c', c_win c2' = c_win c', kw2' = kw' & r2 = r]
  | None, None => True
  | _, _ => False
  end.
Proof.
move=> G c2; rewrite /fit /=; case: (fit_windows _ _ _ _ _ _ _) => s1 [[]|e] //; case: (@eqP _ m T) => // E.
rewrite /allocate /= G; case: (cc_rank (c_cfg c)) => // rk /=.
set g := set_cc_rank (c_cfg c) _; set kw1 := Kw _ _.
have -> : set_cc_rank (set_freq_options (c_cfg c) last reset) (rank_of np X (Model_Utils.RInt #(rank_of np X rk))) = set_freq_options g last reset by [].
have -> : initialization (set_freq_options g last reset) (c_bands c) = initialization g (c_bands c) by [].
case: (initialization _ _) => // al; case: (all_windows s1) => // ls.
rewrite /= loop_freq //; by case: (fit_loop _ _ _ _ _ _ _ _ _ _ _ _ _ _ _) => [[rs|]|].
Qed.

(** an option given at construction is forgotten: the initial eigenvalues, unless initialize_artificially is set too *)
Theorem C56_init_alpha_refuted fuel n (c : costs C n) kw sharp T (X : 'M[C]_(n, T)) m (t : 'rV[C]_m) (w d : nat) c' kw' :
  (0 < w)%N -> (0 < d)%N -> rounds (y_fl y) #T #w -> ~~ cc_art (c_cfg c) ->
  fit np x y fuel c kw sharp X t #w #d = Some (c', kw', Ok tt) -> cc_alpha (c_cfg c') = None.
Proof.
move=> w0 d0 R NA F; have [e [g [pre [al [rk [s1 [rs [[Al In Rk Lo ->] Wi]]]]]]]] := fit_inv w0 d0 R F.
have Ag : cc_art g = cc_art (c_cfg c).
  move: Al; rewrite /allocate; case: (cc_rank _) => // rk'; case: ifP => _; first by move=> [<-].
  case: ifP => _; first by do 2 case: ifP => // _; move=> [<-].
  by case: (cc_max _) => [?|] [<-].
by rewrite /=; move: In; rewrite /initialization Ag (negbTE NA); case: (cc_alpha _) => [a|]; [move=> [<-] | case: (c_bands c) => [b|] [<-]].
Qed.

(** ** Refused arguments (data and time aligned, window inside the data) *)
(** the default svd_rank, None, is never accepted *)
Theorem C56_no_rank fuel n (c : costs C n) kw sharp T (X : 'M[C]_(n, T)) (t : 'rV[C]_T) (w d : BinNums.Z) :
  cc_rank (c_cfg c) = None -> exists c' kw' e, fit np x y fuel c kw sharp X t w d = Some (c', kw', Err e).
Proof.
move=> N; rewrite /fit; case: (fit_windows _ _ _ _ _ _ _) => s1 [[]|e].
  case: (@eqP _ T T) => // E; rewrite /allocate N; by do 3 eexists.
by do 3 eexists.
Qed.
(** an odd rank with force_even_eigs, or one larger than the number of variables *)
Theorem C56_rank_refused fuel n (c : costs C n) kw sharp T (X : 'M[C]_(n, T)) (t : 'rV[C]_T) (w d : nat) (rk : nat) :
  (0 < w)%N -> (0 < d)%N -> rounds (y_fl y) #T #w ->
  ~~ cc_global (c_cfg c) -> cc_rank (c_cfg c) = Some (Model_Utils.RInt #rk) -> (0 < rk)%N ->
  cc_even (c_cfg c) && odd rk \/ (n < rk)%N ->
  exists c' e, fit np x y fuel c kw sharp X t #w #d = Some (c', kw, Err e) /\ c_fit c' = c_fit c.
Proof.
move=> w0 d0 R NG Rk r0 H; rewrite /fit; case: (fit_windows _ _ _ _ _ _ _) => s1 [[]|e]; last by do 2 eexists.
case: (@eqP _ T T) => // E; rewrite /allocate Rk (negbTE NG) /=.
rewrite /Model_Utils.Qltb /Qle_bool /= !BinInt.Z.mul_1_r.
have -> : BinInt.Z.leb #rk Z0 = false.
  by apply/BinInt.Z.leb_gt; case: (rk) r0 => // k _; rewrite Znat.Nat2Z.inj_succ; apply/BinInt.Z.lt_succ_r/Znat.Nat2Z.is_nonneg.
have -> : BinInt.Z.odd #rk = odd rk.
  by elim: (rk) => // k IH; rewrite Znat.Nat2Z.inj_succ BinInt.Z.odd_succ -BinInt.Z.negb_odd IH.
case: ifP => // [_|N]; first by do 2 eexists.
case: H => [|L]; first by rewrite N.
have -> : BinInt.Z.leb #rk #n = false by apply/BinInt.Z.leb_gt/Znat.inj_lt/ssrnat.ltP.
by do 2 eexists.
Qed.

(** ** The options are shared *)
(** With a global basis, fit writes the basis into the options it was given.  Another object, or another level of mrCOSTS, without
    a global basis and with the same options then projects its windows on that foreign basis. *)
Theorem C56_leak_refuted fuel n (c c2 : costs C n) kw sharp sharp2 (w w2 d d2 T T2 : nat) (X : 'M[C]_(n, T)) (t : 'rV[C]_T)
    (X2 : 'M[C]_(n, T2)) (t2 : 'rV[C]_T2) c' c2' kw' kw2' rk0 :
  (0 < w)%N -> (0 < d)%N -> rounds (y_fl y) #T #w -> (0 < w2)%N -> (0 < d2)%N -> rounds (y_fl y) #T2 #w2 ->
  cc_global (c_cfg c) -> cc_rank (c_cfg c) = Some rk0 ->
  ~~ cc_global (c_cfg c2) -> ~~ cc_last (c_cfg c2) -> ~~ cc_art (c_cfg c2) ->
  fit np x y fuel c kw sharp X t #w #d = Some (c', kw', Ok tt) ->
  fit np x y fuel c2 kw' sharp2 X2 t2 #w2 #d2 = Some (c2', kw2', Ok tt) ->
  exists pre (rs : seq (wres C n w2)), c_fit c2' = Some (Fitted pre rs) /\ forall k r0, (k < size rs)%N -> exists rk,
     bopdmd_on fuel (kw_cfg kw) rk (Some (existT _ _ (sv_U (compute_svd np X rk0)))) None sharp2 X2 t2 (nth [::] (listed T2 w2 d2) k) (nth r0 rs k).
Proof.
move=> w0 d0 R w20 d20 R2 G Rk0 NG NL NA F F2.
have [_ [_ [_ [_ _ Eb _ _]]]] := C56_global w0 d0 R G Rk0 F.
have [pre [rs [rk [al [[/(_ NA) -> _] [Ef _ _ H]]]]]] := C56_local w20 d20 R2 NG NL F2.
have Ec : kw_cfg kw' = kw_cfg kw.
  have [e [g [p [al1 [rk' [s1 [rs' [[Al _ _ _ _] _]]]]]]]] := fit_inv w0 d0 R F.
  by move: Al; rewrite /allocate Rk0 G => -[_ <- _].
exists pre, rs; split=> // k r0 K; eexists; rewrite -Eb -Ec; have := H k r0 K; rewrite /= if_same; exact: id.
Qed.
End C56.
Print Assumptions C56_local.
Print Assumptions C56_window_only.
Print Assumptions C56_last.
Print Assumptions C56_global.
Print Assumptions C56_last_refuted.
Print Assumptions C56_init_alpha_refuted.
Print Assumptions C56_no_rank.
Print Assumptions C56_rank_refused.
Print Assumptions C56_leak_refuted.
