(** * C62: the uncertainty plots of BOPDMD *)
From Coq Require List.
From mathcomp Require Import all_ssreflect all_algebra.
From Verif Require Import Py Model_Plot Model_Summary Spec_Summary Proofs_Summary Properties_Summary Properties_SummaryLimits Model_UQ Spec_UQ.
From Verif Require Properties_PlotGrid.
Set Implicit Arguments. Unset Strict Implicit. Unset Printing Implicit Defensive.
Import GRing.Theory Num.Theory Order.Theory.
Local Open Scope ring_scope.

Section Lists.
Lemma every_other_iota b n : every_other (iota b n) = [seq i <- iota b n | odd i == odd b].
Proof.
  have [m] := ubnP n. elim: m b n => [|m IH] b n //.
  case: n => [|[|n]] H; [by []|by rewrite /= eqxx|].
  rewrite [LHS]/= IH; last by rewrite ltnS in H; exact: ltnW.
  rewrite /= eqxx. case: (odd b) => /=; congr (_ :: _); apply: eq_filter => i; by case: (odd i).
Qed.
Lemma leadersE r pairs : leaders r pairs = [seq i <- iota 0 r | pairs || (i == 0%N) || (odd i == odd r)].
Proof.
  rewrite /leaders. case: pairs => /=; first by rewrite filter_predT.
  case R: (odd r) => /=.
  - case: r R => [|r] //= _. congr (_ :: _). rewrite every_other_iota. apply: eq_in_filter => i. rewrite mem_iota => /andP [L _].
    by rewrite (negbTE (lt0n_neq0 L)).
  - rewrite every_other_iota. apply: eq_filter => i. by case: i.
Qed.
Lemma nth_error_nth (T : Type) (x0 : T) (l : seq T) k : (k < size l)%N -> List.nth_error l k = Some (nth x0 l k).
Proof. by elim: l k => [|y l IH] [|k] //= Hl; exact: IH. Qed.

(** rows 0, 2, 4, ... of the table of places *)
Lemma size_every_other {T} (s : seq T) : size (every_other s) = uphalf (size s).
Proof.
  have [m] := ubnP (size s). elim: m s => [|m IH] [|x [|y s]] //= H.
  rewrite IH //. by rewrite !ltnS in H; exact: ltnW.
Qed.
Lemma nth_every_other {T} (x0 : T) (s : seq T) i : nth x0 (every_other s) i = nth x0 s i.*2.
Proof.
  have [m] := ubnP (size s). elim: m s i => [|m IH] [|x [|y s]] [|i] //= H; rewrite ?nth_nil //.
  rewrite IH //. by rewrite !ltnS in H; exact: ltnW.
Qed.
Lemma nth_flatten_rows (c : nat) (ss : seq (seq nat)) i : all (fun s => size s == c) ss -> (0 < c)%N ->
  nth 0%N (flatten ss) i = nth 0%N (nth [::] ss (i %/ c)) (i %% c).
Proof.
  elim: ss i => [|s ss IH] i /=; first by rewrite !nth_nil.
  case/andP => /eqP S A C0. rewrite nth_cat S. case: ltnP => L; first by rewrite divn_small ?modn_small.
  rewrite IH //. have -> : (i %/ c = ((i - c) %/ c).+1)%N by rewrite -{1}(subnK L) divnDr // divnn C0 addn1.
  by rewrite /= -[in RHS](subnK L) modnDr addnK.
Qed.
Lemma inds_rows rows c : all (fun s => size s == c) (all_inds rows c).
Proof. by apply/allP => s /mapP [i _ ->]; rewrite size_map size_iota. Qed.
Lemma every_other_sub (s : seq (seq nat)) : {subset every_other s <= s}.
Proof.
  have [m] := ubnP (size s). elim: m s => [|m IH] [|x [|y s]] // H z; first by []. rewrite [every_other _]/=. rewrite inE => /orP [/eqP ->|/IH E]; rewrite !inE ?eqxx // E ?orbT //.
  by rewrite /= !ltnS in H; exact: ltnW.
Qed.
Lemma nth_inds rows c i j : (i < rows)%N -> (j < c)%N -> nth 0%N (nth [::] (all_inds rows c) i) j = (i * c + j)%N.
Proof. move=> Li Lj. by rewrite (nth_map 0%N) ?size_iota // nth_iota // add0n (nth_map 0%N) ?size_iota // nth_iota. Qed.
Lemma places n c i : (0 < c)%N -> (i < n)%N -> let rows := grid_rows n c in
  [/\ ((i %/ c).*2.+1 < rows)%N, nth 0%N (avg_inds rows c) i = ((i %/ c).*2 * c + i %% c)%N
    & nth 0%N (std_inds rows c) i = ((i %/ c).*2.+1 * c + i %% c)%N].
Proof.
  move=> C0 L rows. have Lm : (i %% c < c)%N by rewrite ltn_mod.
  have Lr : ((i %/ c).*2.+1 < rows)%N.
  { rewrite /rows /grid_rows mul2n -doubleS leq_double leq_divRL // mulSn addnC.
    rewrite -ltnS -[(n + c.-1).+1]addnS prednK //. by rewrite ltn_add2r (leq_ltn_trans _ L) // leq_trunc_div. }
  split=> //.
  - rewrite /avg_inds (@nth_flatten_rows c) //; first by rewrite nth_every_other nth_inds // ltnW.
    apply/allP => s /every_other_sub. exact: (allP (inds_rows _ _)).
  - rewrite /std_inds (@nth_flatten_rows c) //; first by rewrite nth_every_other nth_behead nth_inds.
    apply/allP => s /every_other_sub /mem_behead. exact: (allP (inds_rows _ _)).
Qed.
End Lists.

Section S.
Variable C : numClosedFieldType.
Variable argsort : seq C -> seq nat.
Implicit Types (u : uqdmd C) (a : uqargs C).
Notation order_of u := (argsort [seq - `|z| | z <- uq_amps u]).

Lemma asked_indices r a : (mode_indices r a).1 = asked r a.
Proof. rewrite /mode_indices /asked -leadersE. by case: (ua_which a) => [|[n|n]|l]. Qed.
Lemma at_indexP n z k : at_index n z = Ok k <-> counted n z k.
Proof.
  have NE i : Negz i = k%:Z - n%:Z -> n = (k + i.+1)%N.
  { rewrite NegzE => E. apply/eqP. rewrite -eqz_nat PoszD -[i.+1%:Z]opprK E opprB addrC subrK. by []. }
  rewrite /at_index /counted. case: z => [i|i]; case: ltnP => L; split=> //.
  - by case=> <-; split=> //; left.
  - case=> Lk [[->] //|E]. have : (i%:Z < 0)%R by rewrite E subr_lt0 ltz_nat. by [].
  - case=> Lk [[E]|E]; first by rewrite -E ltnNge L in Lk. have : (i%:Z < 0)%R by rewrite E subr_lt0 ltz_nat. by [].
  - case=> <-. split; first by rewrite ltn_subrL /= (leq_ltn_trans _ L). right. rewrite -subzn // NegzE. by rewrite addrC addKr.
  - case=> Lk [//|/NE ->]. by rewrite addnK.
  - case=> Lk [//|/NE E]. by move: L; rewrite E addnS ltnNge leq_addl.
Qed.

Lemma draw_pictured a shape nx ny v rows :
  (ua_shape a = None -> size shape = 1%N) -> (forall s, ua_shape a = Some s -> shape = s) ->
  (ua_x a = None -> nx = nth 0%N shape 0%N) -> (ua_y a = None -> ny = nth 0%N shape 1%N) ->
  draw_values (size shape) nx ny (ua_order a) v = Ok rows -> pictured a v rows.
Proof.
  move=> H1 H2 HX HY. rewrite /draw_values => E. split.
  - move=> N. move: E. rewrite H1 //= . by case: eqP => // _ [<-].
  - move=> w h Hs X0 Y0. move: E. rewrite (H2 _ Hs) /= in HX HY *. rewrite HX // HY // => Er.
    have [R1 [R2 R3]] := Properties_PlotGrid.reshape2_spec _ _ _ _ _ Er.
    have R2' : size rows = h := R2.
    split; [by []|exact: R1|]. move=> p q Lp Lq.
    have E1 := nth_error_nth [::] (l := rows) (k := p). rewrite R2' in E1. have /R3 [_ [Sr Hr]] := E1 Lp.
    have Sr' : size (nth [::] rows p) = w := Sr. split=> //.
    have Lq' : (q < w)%coq_nat by apply/ssrnat.ltP. have := Hr q Lq'. rewrite (nth_error_nth 0) ?Sr' //.
    set pp := Properties_PlotGrid.pos _ _ _ _ _.
    have -> : pp = (if ua_order a is OrderF then p + q * h else p * w + q)%N by rewrite /pp; case: (ua_order a).
    set k := (if ua_order a is OrderF then _ else _). have Lk : (k < size v)%N.
    { have := Properties_PlotGrid.pos_lt (ua_order a) h w p q. move=> G. have {G} := G (elimT ssrnat.ltP Lp) (elimT ssrnat.ltP Lq).
      have R1' : size v = (h * w)%N := R1. rewrite R1' => /ssrnat.ltP. by rewrite /k; case: (ua_order a). }
    by rewrite (nth_error_nth 0 (l := v)) // => [[]].
Qed.
Lemma averageP d (vs us : seq (seq C)) k : average_modes d vs = Ok us -> (k < size vs)%N ->
  [/\ size us = size vs, nth [::] us k = values d (nth [::] vs k) & (1 < d)%N -> (d %| size (nth [::] vs k))%N].
Proof.
  rewrite /average_modes /values. case: ifP => D; last by case=> <-. case: ifP => // Hall [<-] L. rewrite size_map. split=> //.
  - by rewrite (nth_map [::]).
  - move=> _. have := allP Hall _ (mem_nth [::] L). by rewrite mulnC -dvdn_eq.
Qed.

Lemma order_uq u : argsort_ok argsort -> perm_eq (order_of u) (iota 0 (size (uq_amps u))).
Proof.
  move=> H. have R : all (fun z => z \is Num.real) [seq - `|z| | z <- uq_amps u].
  { by apply/allP => z /mapP [w _ ->]; rewrite realN normr_real. }
  by have [] := H _ R; rewrite size_map.
Qed.

(** Panel j is the mode asked for: its number counts the modes by the magnitude of the amplitudes, most significant first, and
    the panel and the one below it show the real part and the deviation of the same mode, averaged over the delays. *)
Theorem C62_modes u a ps mstd estd : argsort_ok argsort -> bagged u mstd estd -> plot_mode_uq argsort u a = Ok ps ->
  let r := size (uq_eigs u) in
  exists o : seq nat, [/\ perm_eq o (iota 0 r), forall k, (k < r)%N -> significance (uq_amps u) k (nth 0%N o k),
    size ps = size (asked r a)
   & forall j, (j < size (asked r a))%N -> let z := nth 0 (asked r a) j in
     exists up k, [/\ List.nth_error ps j = Some up, counted r z k, nth 0 (up_title up) 0 = z + 1,
        (1 < ua_d a)%N -> (ua_d a %| size (nth [::] (uq_modes u) (nth 0%N o k)))%N
       & pictured a (values (ua_d a) (nth [::] mstd (nth 0%N o k))) (up_dev up) /\
         exists2 m, pictured a (values (ua_d a) (nth [::] (uq_modes u) (nth 0%N o k))) m & up_rows up = [seq [seq 'Re w | w <- row] | row <- m]]].
Proof.
  move=> HO [Fi St Sm [Sa Sd Se]] H r. move: H. rewrite /plot_mode_uq Fi St.
  have := asked_indices (size (uq_modes u)) a. case: (mode_indices _ a) => [idx pairs] /= Ei.
  rewrite Sm -/r in Ei *. rewrite -Ei.
  case Esh: (match ua_shape a with Some _ => _ | None => _ end) => [shape|] //. cbn [bind].
  case Enx: (match ua_x a with Some _ => _ | None => _ end) => [nx|] //. cbn [bind].
  set ny := (if ua_y a is Some _ then _ else _).
  have P := order_uq u HO. rewrite Sa -/r in P. set o := order_of u in P *.
  have So : size o = r by rewrite (perm_size P) size_iota.
  case Em: (average_modes _ _) => [modes|] //. cbn [bind]. case Ed: (average_modes _ _) => [devs|] //. cbn [bind].
  case: eqP => // /eqP C0. move=> /panelsP [Hsz Hp]. rewrite size_iota in Hsz Hp.
  have SZ : size modes = r.
  { move: Em. rewrite /average_modes. case: ifP => _; last by case=> <-; rewrite size_map. case: ifP => // _ [<-]. by rewrite !size_map. }
  exists o. split=> //; first by move=> k Hk; apply: argsort_significance; rewrite ?Sa.
  move=> j Hj. set z := nth 0 idx j. have [up Hup] := Hp j Hj. rewrite nth_iota // add0n -/z.
  case Ek: (at_index _ z) => [k|] //. cbn [bind]. rewrite SZ in Ek. have Ck := proj1 (at_indexP _ _ _) Ek. have [Lk _] := Ck.
  case Er: (draw_values _ _ _ _ _) => [m|] //. cbn [bind]. case Es: (draw_values _ _ _ _ _) => [s|] //. cbn [bind]. case=> Eup.
  have Lk1 : (k < size (pick [::] (uq_modes u) o))%N by rewrite size_map So.
  have Lk2 : (k < size (pick [::] mstd o))%N by rewrite size_map So.
  have [_ Em1 Hdiv] := averageP Em Lk1. have [_ Ed1 _] := averageP Ed Lk2.
  rewrite (nth_map 0%N) ?So // in Em1 Hdiv. rewrite (nth_map 0%N) ?So // in Ed1.
  have Q1 : ua_shape a = None -> size shape = 1%N.
  { move: Esh. case: (ua_shape a) => //. by case: eqP => // _ [<-]. }
  have Q2 s' : ua_shape a = Some s' -> shape = s' by move: Esh; case: (ua_shape a) => // s0 [->] [].
  have Q3 : ua_x a = None -> nx = nth 0%N shape 0%N by move: Enx; case: (ua_x a) => //; case: shape {Esh Er Es Q1 Q2 ny Hp} => // w sh [->].
  have Q4 : ua_y a = None -> ny = nth 0%N shape 1%N by rewrite /ny; case: (ua_y a).
  exists up, k. split=> //.
  - by rewrite -Eup /=; case: ifP.
  - split; [|exists m].
    + rewrite -Eup /= -Ed1. exact: draw_pictured Q1 Q2 Q3 Q4 Es.
    + rewrite -Em1. exact: draw_pictured Q1 Q2 Q3 Q4 Er.
    + by rewrite -Eup.
Qed.

Lemma mode_uq_inv u a ps : plot_mode_uq argsort u a = Ok ps ->
  let r := size (uq_modes u) in let idx := asked r a in let c := ua_cols a in
  [/\ (0 < c)%N, size ps = size idx & forall j up, List.nth_error ps j = Some up -> [/\ (j < size idx)%N,
    up_place up = ((j %/ c).*2 * c + j %% c + 1)%N, up_dev_place up = ((j %/ c).*2.+1 * c + j %% c + 1)%N,
    ((j %/ c).*2.+1 < grid_rows (size idx) c)%N
  & up_title up = if (mode_indices r a).2 || (odd r && (j == 0%N)) then [:: nth 0 idx j + 1] else [:: nth 0 idx j + 1; nth 0 idx j + 2]]].
Proof.
  move=> H r idx c. move: H. rewrite /plot_mode_uq. case: (uq_fitted u) => //. case: (uq_std u) => [[mstd estd]|] //.
  have := asked_indices (size (uq_modes u)) a. case: (mode_indices _ a) => [idx' pairs] /= Ei. rewrite -/r -/idx in Ei *. rewrite Ei.
  case: (match ua_shape a with Some _ => _ | None => _ end) => [shape|] //. cbn [bind].
  case: (match ua_x a with Some _ => _ | None => _ end) => [nx|] //. cbn [bind].
  case: (average_modes _ _) => [modes|] //. cbn [bind]. case: (average_modes _ _) => [devs|] //. cbn [bind].
  rewrite -/c. case: eqP => // /eqP; rewrite -lt0n => C0. move=> /panelsP [Hsz Hp]. rewrite size_iota in Hsz Hp. split=> // j up Hj.
  have Lj : (j < size idx)%N.
  { rewrite -Hsz. apply/ssrnat.ltP. apply/List.nth_error_Some. by rewrite Hj. }
  have [up' Hup'] := Hp j Lj. rewrite Hj in Hup'. case: Hup' => <-. rewrite nth_iota // add0n.
  case: (at_index _ _) => [k|] //. cbn [bind]. case: (draw_values _ _ _ _ _) => [m|] //. cbn [bind].
  case: (draw_values _ _ _ _ _) => [sd|] //. cbn [bind]. case=> <- /=.
  have [L1 L2 L3] := places C0 Lj. by rewrite L2 L3.
Qed.

(** The deviation is drawn directly below its mode; no two subplots share a place; the modes are in reading order; all places
    are in the grid. *)
Theorem C62_layout u a ps : plot_mode_uq argsort u a = Ok ps -> exists rows,
  (forall j up, List.nth_error ps j = Some up ->
     [/\ (0 < up_place up)%N, up_dev_place up = (up_place up + ua_cols a)%N & (up_dev_place up <= rows * ua_cols a)%N]) /\
  (forall i j up up', List.nth_error ps i = Some up -> List.nth_error ps j = Some up' ->
     (i < j -> up_place up < up_place up')%N /\ up_place up <> up_dev_place up').
Proof.
  move=> /mode_uq_inv. set r := size (uq_modes u). set idx := asked r a. set c := ua_cols a. case=> C0 Hsz H.
  exists (grid_rows (size idx) c). split.
  - move=> j up /H [Lj -> -> Lr _]. split; first by rewrite addn1.
    + by rewrite mulSn -addnA (addnC c) [(_ + c + _)%N]addnAC addnA.
    + rewrite addn1 -addnS. apply: (@leq_trans ((j %/ c).*2.+2 * c)).
      * by rewrite [((_).+2 * c)%N]mulSn [(c + _)%N]addnC leq_add2l ltn_mod.
      * by rewrite leq_mul2r Lr orbT.
  - move=> i j up up' /H [Li Ei Ei' _ _] /H [Lj Ej Ej' _ _]. split.
    + move=> Lij. rewrite Ei Ej ltn_add2r. have Dij : (i %/ c <= j %/ c)%N by apply: leq_div2r; exact: ltnW.
      move: Dij. rewrite leq_eqVlt => /orP [/eqP D|D].
      * rewrite D ltn_add2l. move: Lij. by rewrite {1}(divn_eq i c) {1}(divn_eq j c) D ltn_add2l.
      * apply: (@leq_trans ((i %/ c).*2.+1 * c)).
        -- by rewrite mulSn [(c + _)%N]addnC ltn_add2l ltn_mod.
        -- apply: (leq_trans _ (leq_addr _ _)). by rewrite leq_mul2r ltn_double D orbT.
    + rewrite Ei Ej' => /eqP. rewrite eqn_add2r => /eqP E.
      have := congr1 (fun x => odd (x %/ c)) E. rewrite !divnMDl // !(divn_small (ltn_pmod _ C0)) !addn0 /= !odd_double. by [].
Qed.

Lemma titles_two b m : flatten [seq [:: i%:Z + 1; i%:Z + 2%:Z] | i <- every_other (iota b m.*2)] = [seq i%:Z + 1 | i <- iota b m.*2] :> seq int.
Proof. elim: m b => [|m IH] b //. rewrite doubleS /= IH. congr [:: _, _ & _]. by rewrite -[in RHS]addn1 PoszD -addrA. Qed.
Lemma map_nth0 T (f : int -> T) (t : seq int) : [seq f (nth 0 t j) | j <- iota 0 (size t)] = [seq f z | z <- t].
Proof. by rewrite -{3}[t](mkseq_nth 0) /mkseq -map_comp. Qed.
Lemma map_nth1 T (f g : int -> T) (x : int) (t : seq int) :
  [seq (if j == 0%N then f (nth 0 (x :: t) j) else g (nth 0 (x :: t) j)) | j <- iota 1 (size t)] = [seq g z | z <- t].
Proof. by rewrite -[1%N]/(1 + 0)%N iotaDl -map_comp -map_nth0; apply: eq_map. Qed.
(** When all modes are asked for, every mode is named in exactly one title, in order of significance. *)
Theorem C62_titles u a ps : plot_mode_uq argsort u a = Ok ps -> ua_which a = WAll ->
  flatten [seq up_title up | up <- ps] = [seq i%:Z + 1 | i <- iota 0 (size (uq_modes u))].
Proof.
  move=> /mode_uq_inv. set r := size (uq_modes u). set idx := asked r a. set c := ua_cols a. case=> C0 Hsz H Hw.
  pose ttl j := if ua_pairs a || (odd r && (j == 0%N)) then [:: nth 0 idx j + 1] else [:: nth 0 idx j + 1; nth 0 idx j + 2%:Z].
  have -> : [seq up_title up | up <- ps] = [seq ttl j | j <- iota 0 (size idx)].
  { rewrite -Hsz. case: ps Hsz H => [|u0 ps] Hsz H //. apply: (@eq_from_nth _ [::]); first by rewrite !size_map size_iota.
    move=> j. rewrite size_map => Lj. rewrite (nth_map u0) // (nth_map 0%N) ?size_iota // nth_iota // add0n.
    have [_ _ _ _ ->] := H j _ (nth_error_nth u0 Lj). rewrite /ttl. by rewrite /mode_indices Hw. }
  have Eidx : idx = map Posz (leaders r (ua_pairs a)) by rewrite /idx /asked Hw leadersE.
  rewrite /ttl Eidx /leaders. case: (ua_pairs a) => /=.
  - by rewrite (map_nth0 (fun z => [:: z + 1])) flatten_map1 -map_comp.
  - case R: (odd r) => /=.
    + case: r R {idx ttl Hsz H Eidx} => [|n] //= R.
      rewrite (map_nth1 (fun z => [:: z + 1]) (fun z => [:: z + 1; z + 2%:Z])) -map_comp.
      have En : n = n./2.*2 by rewrite -[LHS]odd_double_half (negbTE R).
      by rewrite En titles_two.
    + have En : r = r./2.*2 by rewrite -[LHS]odd_double_half R.
      by rewrite (map_nth0 (fun z => [:: z + 1; z + 2%:Z])) -map_comp {1}En titles_two -En.
Qed.
(** A list of indexes: one picture per index, titled with that one mode (the conjugates are not taken together). *)
Theorem C62_listed u a ps l : plot_mode_uq argsort u a = Ok ps -> ua_which a = WList l ->
  [seq up_title up | up <- ps] = [seq [:: z + 1] | z <- l].
Proof.
  move=> /mode_uq_inv. set r := size (uq_modes u). set idx := asked r a. case=> _ Hsz H Hw.
  have Eidx : idx = l by rewrite /idx /asked Hw.
  rewrite -(map_nth0 (fun z => [:: z + 1])) -Eidx -Hsz.
  case: ps Hsz H => [|u0 ps] Hsz H //. apply: (@eq_from_nth _ [::]); first by rewrite !size_map size_iota.
  move=> j. rewrite size_map => Lj. rewrite (nth_map u0) // (nth_map 0%N) ?size_iota // nth_iota // add0n.
  have [_ _ _ _ ->] := H j _ (nth_error_nth u0 Lj). by rewrite /mode_indices Hw.
Qed.
End S.
Print Assumptions C62_modes.
Print Assumptions C62_layout.
Print Assumptions C62_titles.
Print Assumptions C62_listed.
