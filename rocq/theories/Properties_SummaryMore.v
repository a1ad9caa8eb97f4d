(** * C61: plot_summary: colours, conversions, sizes, per cents, delays, limits, refusals *)
From Coq Require List.
From mathcomp Require Import all_ssreflect all_algebra.
From Verif Require Import Py Model_Plot Model_Summary Spec_Summary Proofs_Summary Properties_Summary.
From Verif Require Properties_PlotGrid.
Set Implicit Arguments. Unset Strict Implicit. Unset Printing Implicit Defensive.
Import GRing.Theory Num.Theory Order.Theory.
Local Open Scope ring_scope.

Section S.
Variable C : numClosedFieldType.
Variable K : Type.
Variable ex : sext C.
Implicit Types (d : sdmd C) (a : sargs C K) (s : summary C K).
Notation order_of d := (e_argsort ex [seq - `|z| | z <- sd_amps d]).

Lemma conv_size d a s modes : argsort_ok (e_argsort ex) -> aligned d modes -> forall time disc cont,
  conversions ex d a (pick 0 (sd_eigs d) (order_of d)) = Ok (time, disc, cont) -> size cont = size (sd_eigs d).
Proof.
  move=> HO [Hm Sm Sa Sd] time disc cont Ec. have [dt [_ _ _ _]] := conversionsP Ec. rewrite size_map => ->.
  by rewrite (perm_size (order_perm d HO)) size_iota.
Qed.

(** Every eigenvalue has a marker in the continuous-time panel; the discrete-time panel is empty or has the same markers at
    other places. *)
Theorem C61_complete d a s modes : argsort_ok (e_argsort ex) -> aligned d modes -> plot_summary ex d a = Ok s ->
  (forall k, (k < size (sd_eigs d))%N -> exists2 m, List.In m (su_cont s) & mk_i m = k) /\
  (su_disc s = [::] /\ sd_bop d \/
   [seq (mk_i m, mk_colour m, mk_size m) | m <- su_disc s] = [seq (mk_i m, mk_colour m, mk_size m) | m <- su_cont s]).
Proof.
  move=> HO AL H. have [Hm Sm Sa Sd] := AL. have [shape [time [disc [cont [lm [sv [z0 [rest [pt]]]]]]]]] := summary_inv Hm H.
  case=> [[_ Hi _ Ha] [[Ec Em Es El Ep] [[Emp Edp Et Edi Eco] _]]].
  have [P1 [P2 P3]] := paintP Ep. split.
  - move=> k Hk. case Hf: (k \in flat (pair_loop cont [::] (shown d a))).
    + have Hk' : k \in map fst pt by rewrite P2.
      have [c Hc] := colour_of_ok Hk'. have {}Hc := colour_ofP Hc.
      rewrite Eco. exists (Mark k (nth 0 (if sa_flip a then map (@flip C) cont else cont) k) c (nth 0 [seq sa_ms a * sqrtC (z / z0) | z <- z0 :: rest] k)) => //.
      apply: (proj2 (eig_panelP _ _ _ _ _ _)). left. by exists (k, c).
    + rewrite Eco. exists (Mark k (nth 0 (if sa_flip a then map (@flip C) cont else cont) k) (sa_rank_colour a) (nth 0 [seq sa_ms a * sqrtC (z / z0) | z <- z0 :: rest] k)) => //.
      apply: (proj2 (eig_panelP _ _ _ _ _ _)). right. exists k => //. by rewrite mem_filter Hf mem_iota /= add0n.
  - have [dt [_ _ Hd _ _]] := conversionsP Ec. rewrite Edi Eco Hd. case: ifP => [/andP [-> _]|_]; first by left.
    right. rewrite /eig_panel !map_cat -!map_comp. by congr (_ ++ _); apply: eq_map.
Qed.

(** With distinct eigenvalues: the highlighted markers are those of the shown modes and of their complex conjugates, all
    others have the colour of the rank, and two highlighted markers have the same colour exactly when they are the same
    eigenvalue or complex conjugates. *)
Theorem C61_colours d a s modes : argsort_ok (e_argsort ex) -> aligned d modes -> plot_summary ex d a = Ok s ->
  List.NoDup (sa_main a) -> ~ List.In (sa_rank_colour a) (sa_main a) -> uniq (shown d a) ->
  exists w : seq C, [/\ size w = size (sd_eigs d), forall m, List.In m (su_cont s) -> (mk_i m < size w)%N /\ mk_at m = place a (nth 0 w (mk_i m))
   & uniq w ->
     (forall m, List.In m (su_cont s) -> mk_colour m = sa_rank_colour a <->
        ~ (mk_i m \in shown d a \/ exists2 j, j \in shown d a & nth 0 w (mk_i m) = (nth 0 w j)^* )) /\
     (forall m m', List.In m (su_cont s) -> List.In m' (su_cont s) -> mk_colour m <> sa_rank_colour a ->
        mk_colour m = mk_colour m' <-> mk_i m = mk_i m' \/ nth 0 w (mk_i m) = (nth 0 w (mk_i m'))^* )].
Proof.
  move=> HO AL H ND NR US. have [Hm Sm Sa Sd] := AL. have [shape [time [disc [cont [lm [sv [z0 [rest [pt]]]]]]]]] := summary_inv Hm H.
  case=> [[_ Hi _ Ha] [[Ec Em Es El Ep] [[Emp Edp Et Edi Eco] _]]].
  have Hsz := conv_size s HO AL Ec.
  have [P1 [P2 P3]] := paintP Ep. set cc := pair_loop _ _ _ in Ep Eco P1 P2 P3.
  have G : all (good cont (shown d a)) cc by apply: pair_loop_good.
  have Lc p : p \in cc -> (p.1 < size cont)%N && (p.2 < size cont)%N.
  { move=> Hp. rewrite Hsz. exact: good_lt Hsz Ha (allP G _ Hp). }
  exists cont. split=> //.
  - move=> m. rewrite Eco => /(proj1 (eig_panelP _ _ _ _ _ _)).
    have E k : (k < size cont)%N -> nth 0 (if sa_flip a then map (@flip C) cont else cont) k = place a (nth 0 cont k).
    { move=> Hk. rewrite /place. case: (sa_flip a) => //. by rewrite (nth_map 0) // /flip addrC. }
    case=> [[p Hp ->]|[i Hi' ->]] /=.
    + have : p.1 \in flat cc by rewrite -P2; exact: (@in_map_nth _ [::]).
      case/mem_flatP => q /Lc /andP [L1 L2] Hq. have L : (p.1 < size cont)%N by case/orP: Hq => /eqP ->. by rewrite E.
    + move: Hi'. rewrite mem_filter mem_iota add0n /= => /andP [_]. rewrite -Hsz => L. by rewrite E.
  - move=> Uw.
    have Ha' : all (fun i => (i < size cont)%N) (shown d a) by rewrite Hsz.
    have [//|//|AP UC] := @pair_loop_apart C cont (shown d a) [::] Uw US Ha' isT isT.
    { by apply/hasPn => j _. }
    rewrite -/cc /= in AP UC.
    (* a pair containing i contains exactly i and its conjugate *)
    have PAIR p i : p \in cc -> (i == p.1) || (i == p.2) -> forall j, (j < size cont)%N ->
      ((j == p.1) || (j == p.2)) = ((j == i) || (nth 0 cont j == (nth 0 cont i)^*)).
    { move=> Hp Hip j Lj. have /andP [L1 L2] := Lc p Hp. have /andP [_ Gp] := allP G _ Hp.
      case: ifP Gp => [Y /eqP E2|N /eqP E2].
      - have W2 : nth 0 cont p.2 = (nth 0 cont p.1)^* by rewrite E2 nth_index.
        have Q1 k : (k < size cont)%N -> (nth 0 cont k == nth 0 cont p.1) = (k == p.1) by move=> Lk; rewrite nth_uniq.
        have Q2 k : (k < size cont)%N -> (nth 0 cont k == nth 0 cont p.2) = (k == p.2) by move=> Lk; rewrite nth_uniq.
        case/orP: Hip => /eqP ->.
        + by rewrite -W2 Q2.
        + by rewrite W2 conjCK Q1 // orbC.
      - rewrite E2 in Hip *. rewrite orbb in Hip. rewrite (eqP Hip) orbb. case: (j == p.1) => //=. symmetry. apply/negbTE.
        apply: contraFneq N => <-. exact: mem_nth. }
    have HL i : (i < size cont)%N -> (i \in flat cc <-> (i \in shown d a \/ exists2 j, j \in shown d a & nth 0 cont i = (nth 0 cont j)^* )).
    { move=> Li. split.
      - case/mem_flatP => p Hp Hip. have /andP [S1 _] := allP G _ Hp. have := PAIR p p.1 Hp _ i Li. rewrite eqxx => /(_ isT).
        rewrite Hip => /esym /orP [/eqP ->|/eqP E]; [by left|right]. by exists p.1.
      - case=> [Hs|[j Hj E]]; first exact: pair_loop_cover.
        have /mem_flatP [p Hp Hjp] := @pair_loop_cover _ cont (shown d a) [::] j Hj.
        apply/mem_flatP. exists p => //. by rewrite (PAIR p j Hp Hjp i Li) E eqxx orbT. }
    have COL m : List.In m (su_cont s) -> (mk_i m < size cont)%N /\
       ((mk_colour m = sa_rank_colour a /\ mk_i m \notin flat cc) \/
        (mk_i m \in flat cc /\ exists k, [/\ (k < size cc)%N, List.nth_error (sa_main a) k = Some (mk_colour m)
            & (mk_i m == (nth (0, 0)%N cc k).1) || (mk_i m == (nth (0, 0)%N cc k).2)])).
    { rewrite Eco => /(proj1 (eig_panelP _ _ _ _ _ _)) [[p Hp ->]|[i Hi' ->]] /=.
      - have F : p.1 \in flat cc by rewrite -P2; exact: (@in_map_nth _ [::]).
        split; first by case/mem_flatP: F => q /Lc /andP [L1 L2] /orP [] /eqP ->.
        right. split=> //. apply/P3. by rewrite -surjective_pairing.
      - move: Hi'. rewrite mem_filter mem_iota add0n /= => /andP [N L]. rewrite -Hsz in L. split=> //. by left. }
    have MAIN k c : List.nth_error (sa_main a) k = Some c -> c <> sa_rank_colour a.
    { move=> Hk E. apply: NR. rewrite -E. exact: List.nth_error_In Hk. }
    split.
    + move=> m Hin. have [L [[E N]|[F [k [Lk Ek _]]]]] := COL m Hin.
      * split=> // _ /(HL _ L). by rewrite (negbTE N).
      * split; first by move=> E; case: (MAIN _ _ Ek). by move/(HL _ L): F.
    + move=> m m' Hin Hin' NRC. have [L [[E N]|[F [k [Lk Ek Ik]]]]] := COL m Hin; first by case: NRC.
      have [L' H'] := COL m' Hin'. have Hk : nth (0, 0)%N cc k \in cc by exact: mem_nth.
      have ceq : (nth 0 cont (mk_i m) == (nth 0 cont (mk_i m'))^*) = (nth 0 cont (mk_i m') == (nth 0 cont (mk_i m))^*).
      { by apply/eqP/eqP => ->; rewrite conjCK. }
      split.
      * move=> Ecol. case: H' => [[E' _]|[F' [k' [Lk' Ek' Ik']]]]; first by case: (MAIN _ _ Ek); rewrite Ecol.
        have Ekk : k' = k.
        { have /List.NoDup_nth_error := ND. apply.
          - by apply/List.nth_error_Some; rewrite Ek'.
          - by rewrite Ek' Ek Ecol. }
        rewrite Ekk in Ik'. have := PAIR _ _ Hk Ik _ L'. rewrite Ik' => /esym /orP [/eqP ->|E]; [by left|right].
        by apply/eqP; rewrite ceq.
      * move=> Hc. have Ik' : (mk_i m' == (nth (0, 0)%N cc k).1) || (mk_i m' == (nth (0, 0)%N cc k).2).
        { rewrite (PAIR _ _ Hk Ik _ L'). case: Hc => [->|/eqP]; first by rewrite eqxx. by rewrite ceq => ->; rewrite orbT. }
        case: H' => [[E' N']|[F' [k' [Lk' Ek' Ik'']]]].
        -- case/negP: N'. apply/mem_flatP. by exists (nth (0, 0)%N cc k).
        -- suff Ekk : k' = k by rewrite Ekk Ek in Ek'; case: Ek'.
           have Hk' : nth (0, 0)%N cc k' \in cc by exact: mem_nth.
           apply/eqP. rewrite -(nth_uniq (0, 0)%N Lk' Lk UC). apply/negPn/negP => NE.
           have [A1 A2 A3 A4] := AP _ _ Hk' Hk NE.
           case/orP: Ik' => /eqP E1; case/orP: Ik'' => /eqP E2; move: A1 A2 A3 A4; rewrite -?E1 -?E2 ?eqxx //.
Qed.

(** The two panels agree: the discrete-time eigenvalue is the exponential of the continuous-time one times the step. *)
Theorem C61_conversion d a s modes : argsort_ok (e_argsort ex) -> aligned d modes -> plot_summary ex d a = Ok s ->
  (forall z, z != 0 -> e_exp ex (e_log ex z) = z) -> 0 \notin sd_eigs d ->
  exists2 dt, step_of d a (su_time s) dt & dt != 0 -> sa_flip a = false ->
   forall m m', List.In m (su_disc s) -> List.In m' (su_cont s) -> mk_i m = mk_i m' -> mk_at m = e_exp ex (mk_at m' * dt).
Proof.
  move=> HO AL H EL N0. have [o [dt [[P ST _] [HC [HD _]]]]] := C61_aligned HO AL H.
  exists dt => // Ndt NF m m' Hm Hm' E. have [L ->] := HD m Hm. have [L' ->] := HC m' Hm'.
  rewrite /place NF E /to_disc /to_cont. case: (is_continuous d a) => //. rewrite divfK // EL //.
  apply: contraNneq N0 => <-. apply: mem_nth.
  have : nth 0%N o (mk_i m') \in iota 0 (size (sd_eigs d)) by rewrite -(perm_mem P) mem_nth // (perm_size P) size_iota.
  by rewrite mem_iota.
Qed.

(** The area of a marker is proportional to the magnitude of the amplitude, the most significant one has size max_eig_ms. *)
Theorem C61_sizes d a s modes : argsort_ok (e_argsort ex) -> aligned d modes -> plot_summary ex d a = Ok s -> 0 <= sa_ms a ->
  exists o : seq nat, [/\ perm_eq o (iota 0 (size (sd_eigs d))), forall k, (k < size (sd_eigs d))%N -> significance (sd_amps d) k (nth 0%N o k)
   & nth 0 (sd_amps d) (nth 0%N o 0%N) != 0 ->
     (forall m, List.In m (su_cont s) -> [/\ 0 <= mk_size m, mk_size m <= sa_ms a
       & mk_size m ^+ 2 = sa_ms a ^+ 2 * (`|nth 0 (sd_amps d) (nth 0%N o (mk_i m))| / `|nth 0 (sd_amps d) (nth 0%N o 0%N)|)]) /\
     (forall m, List.In m (su_cont s) -> mk_i m = 0%N -> mk_size m = sa_ms a)].
Proof.
  move=> HO AL H M0. have [Hm Sm Sa Sd] := AL. have [shape [time [disc [cont [lm [sv [z0 [rest [pt]]]]]]]]] := summary_inv Hm H.
  case=> [[_ Hi _ Ha] [[Ec Em Es El Ep] [[Emp Edp Et Edi Eco] _]]].
  have Hsz := conv_size s HO AL Ec. have P := order_perm d HO. rewrite Sa in P. set o := order_of d in Ec Em El P *.
  have So : size o = size (sd_eigs d) by rewrite (perm_size P) size_iota.
  have SIG k : (k < size (sd_eigs d))%N -> significance (sd_amps d) k (nth 0%N o k).
  { by move=> Hk; apply: argsort_significance; rewrite ?Sa. }
  have Hn k : (k < size (sd_eigs d))%N -> nth 0 (z0 :: rest) k = `|nth 0 (sd_amps d) (nth 0%N o k)|.
  { move=> Hk. by rewrite -El (nth_map 0) ?size_map ?So // (nth_map 0%N) ?So. }
  have S1 : size (z0 :: rest) = size (sd_eigs d) by rewrite -El !size_map So.
  have L0 : (0 < size (sd_eigs d))%N by rewrite -S1.
  have E0 : z0 = `|nth 0 (sd_amps d) (nth 0%N o 0%N)| by rewrite -(Hn 0%N).
  have G : all (good cont (shown d a)) (pair_loop cont [::] (shown d a)) by apply: pair_loop_good.
  have SZ m : List.In m (su_cont s) -> (mk_i m < size (sd_eigs d))%N /\ mk_size m = sa_ms a * sqrtC (nth 0 (z0 :: rest) (mk_i m) / z0).
  { have [o' [dt [_ [HC _]]]] := C61_aligned HO AL H. move=> Hin. have [L _] := HC m Hin. split=> //.
    move: Hin L. rewrite Eco => /(proj1 (eig_panelP _ _ _ _ _ _)) [[p Hp ->]|[i Hi' ->]] L; by rewrite [mk_size _]/= (nth_map 0) ?S1. }
  exists o. split=> // N0. have Z0 : 0 < z0 by rewrite E0 normr_gt0.
  have MAX k : (k < size (sd_eigs d))%N -> nth 0 (z0 :: rest) k <= z0.
  { move=> Hk. rewrite Hn // E0. have /andP [C1 _] := SIG 0%N L0. move: C1. rewrite leqn0 eqn0Ngt -has_count => /hasPn.
    have Lk : (nth 0%N o k < size (sd_amps d))%N.
    { have : nth 0%N o k \in iota 0 (size (sd_eigs d)) by rewrite -(perm_mem P) mem_nth // So. by rewrite mem_iota Sa. }
    move/(_ _ (mem_nth 0 Lk)). by rewrite -real_leNgt ?normr_real. }
  split.
  - move=> m Hin. have [L ->] := SZ m Hin. have Q0 : 0 <= nth 0 (z0 :: rest) (mk_i m) / z0 by rewrite Hn // divr_ge0 // ltW.
    split.
    + by rewrite mulr_ge0 // sqrtC_ge0.
    + rewrite -{2}(mulr1 (sa_ms a)) ler_wpmul2l // -sqrtC1 ler_sqrtC ?qualifE //= ?ler01 // ler_pdivr_mulr // mul1r. exact: MAX.
    + by rewrite exprMn sqrtCK -E0 Hn.
  - move=> m Hin E. have [L ->] := SZ m Hin. by rewrite E /= divff ?gt_eqF // sqrtC1 mulr1.
Qed.

(** The percentages: of all the singular values together, the first rank of them marked as used. *)
Theorem C61_percents d a s modes sv : aligned d modes -> plot_summary ex d a = Ok s -> sd_svals d = Some sv ->
  all (fun z => 0 <= z) sv -> \sum_(z <- sv) z != 0 ->
  [/\ all (fun z => 0 <= z) (su_used s ++ su_unused s), \sum_(z <- su_used s ++ su_unused s) z <= 100%:R,
      (size sv <= sa_max a)%N -> \sum_(z <- su_used s ++ su_unused s) z = 100%:R,
      size (su_used s) = minn (size (sd_eigs d)) (size sv)
    & forall k, (k < minn (sa_max a) (size sv))%N ->
        nth 0 (su_used s ++ su_unused s) k * (\sum_(z <- sv) z) = 100%:R * nth 0 sv k].
Proof.
  move=> [Hm Sm Sa Sd] H Hs A0 N0. have [shape [time [disc [cont [lm [sv' [z0 [rest [pt]]]]]]]]] := summary_inv Hm H.
  case=> [[_ Hi Hr Ha] [[Ec Em Es El Ep] [_ [[-> ->] _]]]]. move: Es. rewrite Hs => [[E]]. subst sv'.
  rewrite cat_take_drop /percents. set S := \sum_(z <- sv) z in N0 *.
  have SP : 0 < S by rewrite lt_def N0 /= /S big_seq sumr_ge0 // => z Hz; exact: (allP A0).
  have TOT : \sum_(z <- [seq z * (100%:R / S) | z <- sv]) z = 100%:R.
  { rewrite big_map -mulr_suml -/S mulrCA divff ?mulr1 //. }
  have NN : all (fun z => 0 <= z) [seq z * (100%:R / S) | z <- sv].
  { apply/allP => z /mapP [w Hw ->]. apply: mulr_ge0; [exact: (allP A0)|apply: divr_ge0; [exact: ler0n|exact: ltW]]. }
  split.
  - apply/allP => z /mem_take. exact: (allP NN).
  - move: TOT NN. set ps := [seq _ | z <- sv] => TOT NN. rewrite -TOT -{2}(cat_take_drop (sa_max a) ps) big_cat /= ler_addl.
    rewrite big_seq sumr_ge0 // => z /mem_drop. exact: (allP NN).
  - by move=> L; rewrite take_oversize ?size_map // TOT.
  - by rewrite take_take // size_take size_map.
  - move=> k. rewrite leq_min => /andP [L1 L2]. rewrite nth_take // (nth_map 0) //.
    by rewrite -mulrA divfK // mulrC.
Qed.

(** With d > 1 the panel of a mode shows its mean over the delays (in one dimension); with two dimensions (w, h) the pixel in
    row p and column q is entry p*w+q of the mode in C order, p+q*h in Fortran order. *)
Theorem C61_delays d a s modes : argsort_ok (e_argsort ex) -> aligned d modes -> plot_summary ex d a = Ok s ->
  sa_x a = None -> sa_y a = None ->
  exists o : seq nat, [/\ perm_eq o (iota 0 (size (sd_eigs d))), forall k, (k < size (sd_eigs d))%N -> significance (sd_amps d) k (nth 0%N o k)
   & forall j, (j < size (shown d a))%N -> let v := nth [::] modes (nth 0%N o (nth 0%N (shown d a) j)) in
      let u := if (1 < sa_d a)%N then [seq delay_mean (sa_d a) v i | i <- iota 0 (size v %/ sa_d a)] else v in
      exists2 mp, List.nth_error (su_modes s) j = Some mp &
        [/\ (1 < sa_d a)%N -> (sa_d a %| size v)%N, sa_shape a = None -> mp_rows mp = [:: [seq 'Re z | z <- u]]
          & forall w h, sa_shape a = Some [:: w; h] -> [/\ size (mp_rows mp) = h, size u = (h * w)%N
             & forall p q, (p < h)%N -> (q < w)%N -> size (nth [::] (mp_rows mp) p) = w /\ nth 0 (nth [::] (mp_rows mp) p) q =
                 'Re (nth 0 u (if sa_order a is OrderF then p + q * h else p * w + q)%N)]]].
Proof.
  move=> HO AL H X0 Y0. have [Hm Sm Sa Sd] := AL. have [shape [time [disc [cont [lm [sv [z0 [rest [pt]]]]]]]]] := summary_inv Hm H.
  case=> [[_ Hi _ Ha] [[Ec Em Es El Ep] [[Emp Edp Et Edi Eco] [_ Hsh]]]].
  have P := order_perm d HO. rewrite Sa in P. set o := order_of d in Ec Em El P *.
  have So : size o = size (sd_eigs d) by rewrite (perm_size P) size_iota.
  exists o. split=> //; first by move=> k Hk; apply: argsort_significance; rewrite ?Sa.
  move=> j Hj v u. have [Q1 Q2] := panelsP Emp. have [mp Hmp Fmp] := Q2 j Hj. exists mp => //.
  have Hk : (nth 0%N (shown d a) j < size (sd_eigs d))%N by apply: (allP Ha); exact: mem_nth.
  have Hv : nth [::] (pick [::] modes o) (nth 0%N (shown d a) j) = v by rewrite (nth_map 0%N) ?So.
  have Hin : v \in pick [::] modes o by rewrite -Hv mem_nth // size_map So.
  have [Hdiv Hu] : ((1 < sa_d a)%N -> (sa_d a %| size v)%N) /\ nth [::] lm (nth 0%N (shown d a) j) = u.
  { move: Em. rewrite /average_modes /u. case: ifP => D; last by case=> <-.
    case: ifP => // Hall [<-]. split.
    - move=> _. have := allP Hall _ Hin. by rewrite mulnC -dvdn_eq.
    - by rewrite (nth_map [::]) ?size_map ?So // Hv. }
  move: Fmp. rewrite /draw_mode. case: (colour_of _ _) => [c|] //. cbn [bind]. cbv zeta. rewrite Hu X0 Y0.
  case Erow: (if size shape == 2%N then _ else _) => [rows|] //. cbn [bind]. case=> Emp'.
  split=> //.
  - move=> Hs. move: Hsh Erow. rewrite Hs => [[n [m [_ ->]]]] /=. case: eqP => // _ [Er]. by rewrite -Emp' /= -Er.
  - move=> w h Hs. move: Hsh Erow. rewrite Hs => [[-> _]] /= Er.
    have [R1 [R2 R3]] := Properties_PlotGrid.reshape2_spec _ _ _ _ _ Er.
    have nE (T : Type) (x0 : T) (l : seq T) k : (k < size l)%N -> List.nth_error l k = Some (nth x0 l k).
    { by elim: l k => [|y l IH] [|k] //= Hl; exact: IH. }
    have R2' : size rows = h := R2.
    split; [by rewrite -Emp' size_map|exact: R1|]. move=> p q Lp Lq. rewrite -Emp' /=.
    have E1 := nE _ [::] rows p. rewrite R2' in E1. have /R3 [_ [Sr Hr]] := E1 Lp.
    have Sr' : size (nth [::] rows p) = w := Sr.
    rewrite (nth_map [::]) ?R2' // size_map Sr'. split=> //. rewrite (nth_map 0) ?Sr' //. congr ('Re _).
    have Lq' : (q < w)%coq_nat by apply/ssrnat.ltP. have := Hr q Lq'. rewrite (nE _ 0) ?Sr' //.
    set pp := Properties_PlotGrid.pos _ _ _ _ _.
    have -> : pp = (if sa_order a is OrderF then p + q * h else p * w + q)%N by rewrite /pp; case: (sa_order a).
    set k := (if sa_order a is OrderF then _ else _). have Lk : (k < size u)%N.
    { have := Properties_PlotGrid.pos_lt (sa_order a) h w p q. move=> G. have {G} := G (elimT ssrnat.ltP Lp) (elimT ssrnat.ltP Lq).
      have R1' : size u = (h * w)%N := R1. rewrite R1' => /ssrnat.ltP. by rewrite /k; case: (sa_order a). }
    by rewrite (nE _ 0 u) // => [[]].
Qed.
End S.
Print Assumptions C61_complete.
Print Assumptions C61_colours.
Print Assumptions C61_conversion.
Print Assumptions C61_sizes.
Print Assumptions C61_percents.
Print Assumptions C61_delays.
