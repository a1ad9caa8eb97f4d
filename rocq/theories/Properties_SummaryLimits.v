(** * C61: plot_summary: when it draws, when it refuses, the limits of the axes *)
From Coq Require List.
From mathcomp Require Import all_ssreflect all_algebra.
From Verif Require Import Py Model_Plot Model_Summary Spec_Summary Proofs_Summary Properties_Summary Properties_SummaryMore.
Set Implicit Arguments. Unset Strict Implicit. Unset Printing Implicit Defensive.
Import GRing.Theory Num.Theory Order.Theory.
Local Open Scope ring_scope.

Section L.
Variable C : numClosedFieldType.
Variable K : Type.
Variable ex : sext C.
Implicit Types (d : sdmd C) (a : sargs C K) (s : summary C K).
Notation order_of d := (e_argsort ex [seq - `|z| | z <- sd_amps d]).

Lemma reshape2_ok {T} o ny nx (v : seq T) : size v = (ny * nx)%N -> exists r, reshape2 o ny nx v = Ok r.
Proof.
  move=> E. rewrite /reshape2. have -> : PeanoNat.Nat.eqb (length v) (ny * nx)%coq_nat = true.
  { apply/PeanoNat.Nat.eqb_eq. exact: E. }
  by eexists.
Qed.

Lemma size_average n (v : seq C) : size (average_column n v) = (size v %/ n)%N.
Proof. by rewrite /average_column; cbv zeta; rewrite size_map size_iota. Qed.
Lemma conversions_ok d a lead time : times d a = Some time -> exists disc cont, conversions ex d a lead = Ok (time, disc, cont).
Proof.
  rewrite /times /conversions. case: (sd_bop d).
  - case: (sd_time d) => [|t0 [|t1 tt]] //= [<-]. by eexists; eexists.
  - case: (sd_snap d) => [[n m]|] //. cbn [bind]. case: (sa_t a) => [|t|t].
    + case: (sd_orig d) => [[o1 o2]|] /= [<-]; cbn [bind]; case: (sa_cont a); by eexists; eexists.
    + case=> <-. cbn [bind]. case: (sa_cont a); by eexists; eexists.
    + case: t => [|t0 [|t1 tt]] //= [<-]. cbn [bind]. case: (sa_cont a); by eexists; eexists.
Qed.

(** The summary is drawn for every fitted object with at least one mode, modes that fit the grid and dynamics that fit the times,
    when at most three existing modes are asked for and there are enough colours. *)
Theorem C61_draws d a modes sv time : argsort_ok (e_argsort ex) -> aligned d modes ->
  ~~ sd_havok d -> (0 < size (sd_eigs d) <= sa_max a)%N -> (size (sa_index a) <= 3)%N ->
  all (fun i => (i < size (sd_eigs d))%N) (shown d a) -> (size (shown d a) <= size (sa_main a))%N ->
  sd_svals d = Some sv -> times d a = Some time -> all (fun r => size r == size time) (sd_dyn d) ->
  on_grid d a modes -> sa_x a = None -> sa_y a = None ->
  exists s, plot_summary ex d a = Ok s.
Proof.
  move=> HO AL NH /andP [R0 R1] I3 Ha Hc Hsv Ht Hd Hg X0 Y0. have [Hm Sm Sa Sd] := AL.
  have P := order_perm d HO. rewrite Sa in P.
  rewrite /plot_summary (negbTE NH) Hm.
  have [shape Esh Eg] : exists2 shape, (match sa_shape a with
                    | None => match sd_snap d with
                              | None => Err TypeError
                              | Some (n, _) => if sa_d a == 0%N then Err ZeroDivisionError else Ok [:: (n %/ sa_d a)%N]
                              end
                    | Some s => if size s == 2%N then Ok s else Err ValueError
                    end = Ok shape)
     & exists n, [/\ all (fun v => size v == n * maxn 1 (sa_d a))%N modes
                 & (exists w h, shape = [:: w; h] /\ n = (w * h)%N) \/ shape = [:: n]].
  { move: Hg. rewrite /on_grid. case: (sa_shape a) => [[|w [|h [|]]]|] // Hg.
    - exists [:: w; h] => //. exists (w * h)%N. split=> //. left. by exists w, h.
    - have [n [m [-> D0 Dn Hv]]] := Hg. rewrite eqn0Ngt D0. eexists; first by []. exists (n %/ sa_d a)%N. split; last by right.
      have -> : maxn 1 (sa_d a) = sa_d a by apply/maxn_idPr. by rewrite divnK. }
  rewrite Esh. cbn [bind]. rewrite ltnNge I3 /= ltnNge R1 /=. fold (shown d a).
  have -> : has (fun i => (size (sd_eigs d) <= i)%N) (shown d a) = false.
  { apply/negbTE/hasPn => i Hi. rewrite -ltnNge. exact: (allP Ha). }
  cbv zeta. set o := order_of d in P *.
  have So : size o = size (sd_eigs d) by rewrite (perm_size P) size_iota.
  have Lo k : (k < size (sd_eigs d))%N -> (nth 0%N o k < size (sd_eigs d))%N.
  { move=> Hk. have : nth 0%N o k \in iota 0 (size (sd_eigs d)) by rewrite -(perm_mem P) mem_nth // So. by rewrite mem_iota. }
  have [disc [cont Ec]] := conversions_ok (pick 0 (sd_eigs d) o) Ht. rewrite Ec. cbn [bind].
  have [n [Hn Hshape]] := Eg.
  have Hsz k : (k < size (sd_eigs d))%N -> size (nth [::] (pick [::] modes o) k) = (n * maxn 1 (sa_d a))%N.
  { move=> Hk. rewrite (nth_map 0%N) ?So //. apply/eqP. apply: (allP Hn). by rewrite mem_nth // Sm Lo. }
  have [lm Em Hlm] : exists2 lm, average_modes (sa_d a) (pick [::] modes o) = Ok lm &
      forall k, (k < size (sd_eigs d))%N -> size (nth [::] lm k) = n.
  { rewrite /average_modes. case: ltnP => D.
    - have M : maxn 1 (sa_d a) = sa_d a by apply/maxn_idPr; exact: ltnW.
      have -> : all (fun c => sa_d a * (size c %/ sa_d a) == size c)%N (pick [::] modes o).
      { apply/(all_nthP [::]) => k. rewrite size_map So => Hk. rewrite Hsz // M mulnK ?(ltnW D) //. by rewrite mulnC. }
      eexists; first by []. move=> k Hk. rewrite (nth_map [::]); last by rewrite size_map So. by rewrite size_average Hsz // M mulnK // ltnW.
    - eexists; first by []. move=> k Hk. rewrite Hsz //. have -> : maxn 1 (sa_d a) = 1%N by apply/maxn_idPl. by rewrite muln1. }
  rewrite Em. cbn [bind]. rewrite Hsv. cbn [bind].
  case Ea: [seq `|z| | z <- pick 0 (sd_amps d) o] => [|z0 rest].
  { move/(f_equal size): Ea. rewrite !size_map So /= => E. by rewrite E in R0. }
  cbn [bind].
  have [pt Ep] := @paint_ok K (sa_main a) (pair_loop cont [::] (shown d a)) (leq_trans (pair_loop_size cont (shown d a) [::]) Hc).
  rewrite Ep. cbn [bind]. rewrite (take_oversize (shown_size d I3)).
  have [_ [P2 _]] := paintP Ep.
  have [dt [_ _ _ _ _]] := conversionsP Ec.
  have COL i : i \in shown d a -> exists c, colour_of pt i = Ok c.
  { move=> Hi. apply: colour_of_ok. rewrite P2. exact: pair_loop_cover. }
  have [mp ->] : exists l, panels (draw_mode a shape pt lm) (shown d a) = Ok l.
  { apply: panels_ok => i Hi. have [c Hci] := COL i Hi. rewrite /draw_mode Hci. cbn [bind]. cbv zeta. rewrite X0 Y0.
    have Li := Hlm i (allP Ha _ Hi). case: Hshape => [[w [h [-> En]]]|->] /=.
    - have [|r ->] := @reshape2_ok _ (sa_order a) h w (nth [::] lm i); first by rewrite Li En mulnC.
      cbn [bind]. by eexists.
    - rewrite Li eqxx. cbn [bind]. by eexists. }
  cbn [bind].
  have [dp ->] : exists l, panels (draw_dyn time pt (pick [::] (sd_dyn d) o)) (shown d a) = Ok l.
  { apply: panels_ok => i Hi. have [c Hci] := COL i Hi. rewrite /draw_dyn Hci. cbv zeta. cbn [bind].
    have Li := allP Ha _ Hi. have -> : size time == size [seq 'Re z | z <- nth [::] (pick [::] (sd_dyn d) o) i].
    { rewrite size_map (nth_map 0%N) ?So //. rewrite eq_sym. apply: (allP Hd). by rewrite mem_nth // Sd Lo. }
    by eexists. }
  cbn [bind]. by eexists.
Qed.

(** What is refused with an explanation (a ValueError). *)
Theorem C61_refuses d a : sa_shape a = None -> (exists n m, sd_snap d = Some (n, m)) -> (0 < sa_d a)%N ->
  (sd_havok d \/ sd_modes d = None \/ (3 < size (sa_index a))%N \/ (sa_max a < size (sd_eigs d))%N \/
   (exists2 i, i \in shown d a & (size (sd_eigs d) <= i)%N)) -> plot_summary ex d a = Err ValueError.
Proof.
  move=> Hs [n [m Hn]] Hd. rewrite /plot_summary. case: (sd_havok d) => //. case Em: (sd_modes d) => [modes|] // H.
  rewrite Hs Hn eqn0Ngt Hd /=. fold (shown d a). case: ltnP => // H3. case: ltnP => // H4.
  case: ifP => // Hh. exfalso. case: H => [//|[//|[L|[L|[i Hi L]]]]].
  - by rewrite leqNgt L in H3. - by rewrite leqNgt L in H4. - move/hasPn: (negbT Hh) => /(_ i Hi). by rewrite L.
Qed.
Theorem C61_refuses_shape d a modes sh : ~~ sd_havok d -> sd_modes d = Some modes -> sa_shape a = Some sh -> size sh <> 2%N ->
  plot_summary ex d a = Err ValueError.
Proof. move=> H Hm Hs N. rewrite /plot_summary (negbTE H) Hm Hs. by case: eqP. Qed.

(** Not documented: after fit_econ there are no snapshots, and the default shape fails. *)
Theorem C61_econ_refuted d a modes : ~~ sd_havok d -> sd_modes d = Some modes -> sd_snap d = None -> sa_shape a = None ->
  plot_summary ex d a = Err TypeError.
Proof. move=> H Hm Hn Hs. by rewrite /plot_summary (negbTE H) Hm Hs Hn. Qed.

(** Not documented: the dynamics follow dmd_time but are drawn against the original times: after dmd_time is changed to another
    number of steps there is no summary. *)
Theorem C61_forecast_refuted d a modes time dt : argsort_ok (e_argsort ex) -> aligned d modes -> ~~ sd_bop d -> sa_t a = @TNone C ->
  sd_orig d = Some (time, dt) -> all (fun r => size r != size time) (sd_dyn d) -> (0 < size (shown d a))%N ->
  forall s, plot_summary ex d a <> Ok s.
Proof.
  move=> HO AL NB Ht Ho Hd Hp s H. have [o [dt' [[P ST _] [HC [_ [Sz Sz' Hj]]]]]] := C61_aligned HO AL H.
  move: ST. rewrite /step_of (negbTE NB) Ht Ho => [[Et _]].
  have [mp [dp [m [[_ _ Hin [Em _ _]] [_ Ev Es _]]]]] := Hj 0%N Hp.
  have [Lk _] := HC m Hin. rewrite Em in Lk.
  have Lp : nth 0%N o (nth 0%N (shown d a) 0) \in iota 0 (size (sd_eigs d)) by rewrite -(perm_mem P) mem_nth // (perm_size P) size_iota.
  move: Lp. rewrite mem_iota /= add0n => Lp. have [_ _ _ Sd] := AL. rewrite -Sd in Lp.
  have := allP Hd _ (mem_nth [::] Lp). by rewrite -Et -Es Ev size_map eqxx.
Qed.

(** The vertical axis is labelled per cent of variance, and a comment says so; the numbers are shares of the singular values, not of their
    squares: with singular values 3 and 1 the first has 90% of the variance and is drawn at 75%. *)
Theorem C61_variance_refuted d a s modes : aligned d modes -> plot_summary ex d a = Ok s -> sd_svals d = Some [:: 3%:R; 1] ->
  (1 < sa_max a)%N -> nth 0 (su_used s ++ su_unused s) 0 = 75%:R /\
  3%:R ^+ 2 / (\sum_(z <- [:: 3%:R; 1]) z ^+ 2) = 90%:R / 100%:R :> C.
Proof.
  move=> AL H Hs Hmax.
  have SUM : \sum_(z <- [:: 3%:R; 1]) z = 4%:R :> C by rewrite !big_cons big_nil addr0 -(natrD C 3 1).
  have N4 : 4%:R != 0 :> C by rewrite pnatr_eq0.
  have [||_ _ _ _ /(_ 0%N)] := @C61_percents C K ex d a s modes _ AL H Hs.
  - by rewrite /= ler0n ler01.
  - by rewrite SUM.
  - rewrite leq_min (ltnW Hmax) /= SUM => /(_ isT) E. split.
    + apply: (mulIf N4). by rewrite E -!natrM.
    + rewrite !big_cons big_nil addr0 expr1n -natrX -(natrD C _ 1). apply/eqP. rewrite eqr_div ?pnatr_eq0 //. by rewrite -!natrM.
Qed.
End L.

(** the limits of the vertical axis *)
Section Y.
Variable C : numClosedFieldType.
Implicit Types (l : seq C).

Lemma fold_max l m : m \is Num.real -> all (fun z => z \is Num.real) l ->
  let M := foldl (fun m z => if m <= z then z else m) m l in [/\ M \is Num.real, m <= M & all (fun z => z <= M) l].
Proof.
  elim: l m => [|z l IH] m Rm /=; first by rewrite lexx.
  case/andP => Rz Rl. set m' := if m <= z then z else m. have Rm' : m' \is Num.real by rewrite /m'; case: ifP.
  have [R1 L1 A1] := IH m' Rm' Rl. split=> //.
  - apply: le_trans L1. rewrite /m'. by case: ifP.
  - rewrite A1 andbT. apply: le_trans L1. rewrite /m'. case: ifP => // /negbT. rewrite -real_ltNge //. exact: ltW.
Qed.
Lemma fold_min l m : m \is Num.real -> all (fun z => z \is Num.real) l ->
  let M := foldl (fun m z => if z <= m then z else m) m l in [/\ M \is Num.real, M <= m & all (fun z => M <= z) l].
Proof.
  elim: l m => [|z l IH] m Rm /=; first by rewrite lexx.
  case/andP => Rz Rl. set m' := if z <= m then z else m. have Rm' : m' \is Num.real by rewrite /m'; case: ifP.
  have [R1 L1 A1] := IH m' Rm' Rl. split=> //.
  - apply: le_trans L1 _. rewrite /m'. by case: ifP.
  - rewrite A1 andbT. apply: le_trans L1 _. rewrite /m'. case: ifP => // /negbT. rewrite -real_ltNge //. exact: ltW.
Qed.

Lemma average_between l lo hi : l != [::] -> all (fun z => lo <= z) l -> all (fun z => z <= hi) l -> lo <= average l <= hi.
Proof.
  move=> N A1 A2. have S : 0 < (size l)%:R :> C by rewrite ltr0n; case: (l) N.
  rewrite /average ler_pdivl_mulr // ler_pdivr_mulr //.
  have E w : w * (size l)%:R = \sum_(z <- l) w :> C by rewrite mulr_natr big_const_seq count_predT iter_addr_0.
  rewrite !E. apply/andP; split; rewrite !big_seq; apply: ler_sum => z Hz; [exact: (allP A1)|exact: (allP A2)].
Qed.

(** When the limits of the axis of the dynamics are set, the whole curve is inside them. *)
Theorem C61_visible l lo hi : all (fun z => z \is Num.real) l -> ylim l = Some (lo, hi) -> all (fun z => lo <= z <= hi) l.
Proof.
  move=> R. rewrite /ylim. case: ifP => // /andP [N0 Hs] Hy.
  case: (altP (l =P [::])) => [->|NE] //.
  have Rh : head 0 l \is Num.real by move: R NE; case: (l) => //= z l' /andP [].
  have [RM _ AM] := fold_max Rh R. have [Rm _ Am] := fold_min Rh R.
  set M := foldl _ _ _ in RM AM. set m := foldl _ _ _ in Rm Am.
  have /andP [B1 B2] := average_between NE Am AM. set av := average l in N0 Hs Hy B1 B2.
  have Rav : av \is Num.real by rewrite /av /average rpred_div ?realn // big_seq rpred_sum // => z; apply: (allP R).
  have SP : M - m < `|av|.
  { have P : 0 < `|av| by rewrite normr_gt0.
    rewrite ltr_pdivr_mulr // in Hs. apply: lt_le_trans Hs _. rewrite ler_pimull ?normr_ge0 // invf_le1 ?ltr0n // ler1n. by []. }
  apply/allP => z Hz. have Z1 := allP AM _ Hz. have Z2 := allP Am _ Hz.
  have up : z <= av + `|av|.
  { apply: le_trans Z1 _. rewrite -[M](subrK m) addrC. apply: ler_add => //. exact: ltW. }
  have dn : av - `|av| <= z.
  { apply: le_trans Z2. rewrite ler_subl_addr. apply: le_trans B2 _. rewrite -[M](subrK m) addrC ler_add2l. exact: ltW. }
  move: Hy. rewrite pmulr_rge0 ?ltr0n //. case: ifP => H0 [<- <-].
  - move: up dn. rewrite ger0_norm // subrr -mulr2n mulr_natl => -> ->. by [].
  - move/negbT: H0. rewrite -real_ltNge ?real0 // => H0. move: up dn. rewrite ltr0_norm // subrr opprK -mulr2n mulr_natl => -> ->. by [].
Qed.
Theorem C61_visible_dynamics (K : Type) (ex : sext C) d (a : sargs C K) s modes : argsort_ok (e_argsort ex) -> aligned d modes ->
  plot_summary ex d a = Ok s -> forall p lo hi, List.In p (su_dyn s) -> dp_ylim p = Some (lo, hi) ->
  all (fun z => lo <= z <= hi) (dp_values p).
Proof.
  move=> HO [Hm Sm Sa Sd] H. have [shape [time [disc [cont [lm [sv [z0 [rest [pt]]]]]]]]] := summary_inv Hm H.
  case=> [_ [_ [[_ Edp _ _ _] _]]] p lo hi. have [Sz Hp] := panelsP Edp.
  move=> /(List.In_nth_error _ _) [j Hj]. have Lj : (j < size (shown d a))%N.
  { rewrite -Sz. apply/ssrnat.ltP. apply/(List.nth_error_Some (su_dyn s) j). by rewrite Hj. }
  have [p' Hp' F] := Hp j Lj. have E : p' = p by rewrite Hj in Hp'; case: Hp'. subst p'.
  move: F. rewrite /draw_dyn. case: (colour_of _ _) => [c|] //. cbv zeta. cbn [bind]. case: ifP => // _ [<-] /= Hy.
  apply: C61_visible Hy. apply/allP => z /mapP [w _ ->]. exact: Creal_Re.
Qed.
End Y.

(** The hypotheses can be met: a stable argsort, three modes, two of them conjugate. *)
Section Ex.
Variable C : numClosedFieldType.

Definition sort_positions (l : seq C) : seq nat := sort (fun i j => nth 0 l i <= nth 0 l j) (iota 0 (size l)).
Lemma sort_positions_ok : argsort_ok sort_positions.
Proof.
  move=> l R. split; first by rewrite /sort_positions perm_sort.
  rewrite sorted_map. rewrite /sort_positions.
  apply: (@sort_sorted_in _ (fun i => (i < size l)%N)).
  - move=> i j Hi Hj /=. apply: real_leVge; apply: (allP R); exact: mem_nth.
  - by apply/allP => i; rewrite mem_iota.
Qed.

Definition ex_ext : sext C := SExt sort_positions (fun z => z) (fun z => z) (fun _ _ => true).
Definition ex_dmd : sdmd C := SDmd false false (Some [:: [:: 1; 2%:R]; [:: 'i; 1]; [:: - 'i; 1]]) [:: 2%:R; 'i; - 'i] [:: 1; 3%:R; 3%:R]
  [:: [:: 1; 1]; [:: 0; 1]; [:: 0; 1]] [::] (Some (2, 2)%N) (Some ([:: 0; 1], 1)) (Some [:: 3%:R; 1]).
Definition ex_args : sargs C nat := SArgs None None (@TNone C) 1 true None [:: 0; 1; 2]%N OrderC [:: 1; 2; 3]%N 0%N 10%:R 50 false.

Example C61_ex : exists s modes, [/\ argsort_ok (e_argsort ex_ext), aligned ex_dmd modes, plot_summary ex_ext ex_dmd ex_args = Ok s,
    List.NoDup (sa_main ex_args) /\ ~ List.In (sa_rank_colour ex_args) (sa_main ex_args)
  & [/\ uniq (shown ex_dmd ex_args), uniq (sd_eigs ex_dmd) & sd_svals ex_dmd = Some [:: 3%:R; 1]]].
Proof.
  have [s Hs] : exists s, plot_summary ex_ext ex_dmd ex_args = Ok s.
  { apply: (@C61_draws C nat ex_ext ex_dmd ex_args _ _ [:: 0; 1]) => //; first exact: sort_positions_ok.
    by exists 2%N, 2%N. }
  exists s. eexists. split; [exact: sort_positions_ok|by []|exact: Hs| |].
  - split; last by move=> /= [|[|[|]]].
    by repeat constructor => /=; try (case=> //; case=> //).
  - split=> //=. rewrite !inE andbT negb_or -andbA. apply/and3P; split.
    + apply/eqP => E. have := congr1 (fun z : C => z ^+ 2) E. rewrite sqrCi => /eqP. rewrite -natrX -subr_eq0 opprK -(natrD C _ 1) pnatr_eq0. by [].
    + apply/eqP => E. have := congr1 (fun z : C => z ^+ 2) E. rewrite sqrrN sqrCi => /eqP. rewrite -natrX -subr_eq0 opprK -(natrD C _ 1) pnatr_eq0. by [].
    + rewrite -addr_eq0 -mulr2n -mulr_natl mulf_eq0 pnatr_eq0 /=. exact: neq0Ci.
Qed.
(** the same object after dmd_time was extended by a step: no summary; and one fitted from an SVD with fit_econ *)
Definition ex_forecast : sdmd C := SDmd false false (sd_modes ex_dmd) (sd_eigs ex_dmd) (sd_amps ex_dmd)
  [:: [:: 1; 1; 1]; [:: 0; 1; 0]; [:: 0; 1; 0]] [::] (sd_snap ex_dmd) (sd_orig ex_dmd) (sd_svals ex_dmd).
Example C61_forecast_ex : forall s, plot_summary ex_ext ex_forecast ex_args <> Ok s.
Proof. apply: (@C61_forecast_refuted C nat ex_ext ex_forecast ex_args _ [:: 0; 1] 1) => //. exact: sort_positions_ok. Qed.
Definition ex_econ : sdmd C := SDmd false true (sd_modes ex_dmd) (sd_eigs ex_dmd) (sd_amps ex_dmd)
  (sd_dyn ex_dmd) [:: 0; 1] None None (sd_svals ex_dmd).
Example C61_econ_ex : plot_summary ex_ext ex_econ ex_args = Err TypeError.
Proof. by apply: C61_econ_refuted. Qed.
End Ex.
Print Assumptions C61_draws.
Print Assumptions C61_refuses.
Print Assumptions C61_refuses_shape.
Print Assumptions C61_econ_refuted.
Print Assumptions C61_forecast_refuted.
Print Assumptions C61_variance_refuted.
Print Assumptions C61_visible.
Print Assumptions C61_visible_dynamics.
Print Assumptions C61_ex.
