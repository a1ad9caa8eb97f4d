(** * C61: plot_summary *)
From Coq Require List.
From mathcomp Require Import all_ssreflect all_algebra.
From Verif Require Import Py Model_Plot Model_Summary Spec_Summary Proofs_Summary.
From Verif Require Properties_PlotGrid.
Set Implicit Arguments. Unset Strict Implicit. Unset Printing Implicit Defensive.
Import GRing.Theory Num.Theory Order.Theory.
Local Open Scope ring_scope.

Section S.
Variable C : numClosedFieldType.
Variable K : Type.
Variable ex : sext C.
Implicit Types (d : sdmd C) (a : sargs C K) (s : summary C K).
Notation order_of d := (e_argsort ex [seq - `|z| | z <- sd_amps d]).

Lemma shown_size d a : (size (sa_index a) <= 3)%N -> (size (shown d a) <= 3)%N.
Proof. by rewrite /shown; case: ifP => // /ltnW H _; rewrite size_iota. Qed.

Lemma summary_inv d a s modes : sd_modes d = Some modes -> plot_summary ex d a = Ok s ->
  exists shape time disc cont lm sv z0 rest pt,
    [/\ ~~ sd_havok d, (size (sa_index a) <= 3)%N, (size (sd_eigs d) <= sa_max a)%N & all (fun i => (i < size (sd_eigs d))%N) (shown d a)] /\
    [/\ conversions ex d a (pick 0 (sd_eigs d) (order_of d)) = Ok (time, disc, cont),
        average_modes (sa_d a) (pick [::] modes (order_of d)) = Ok lm, sd_svals d = Some sv,
        [seq `|z| | z <- pick 0 (sd_amps d) (order_of d)] = z0 :: rest & paint (sa_main a) (pair_loop cont [::] (shown d a)) = Ok pt] /\
    (let ms := [seq sa_ms a * sqrtC (z / z0) | z <- z0 :: rest] in
     let cc := pair_loop cont [::] (shown d a) in
     let panel := eig_panel pt (others (size (sd_eigs d)) cc) (sa_rank_colour a) ms in
     [/\ panels (draw_mode a shape pt lm) (shown d a) = Ok (su_modes s),
         panels (draw_dyn time pt (pick [::] (sd_dyn d) (order_of d))) (shown d a) = Ok (su_dyn s),
         su_time s = time, su_disc s = (if disc is Some e then panel e else [::])
       & su_cont s = panel (if sa_flip a then map (@flip C) cont else cont)]) /\
    (su_used s = take (size (sd_eigs d)) (percents (sa_max a) sv) /\ su_unused s = drop (size (sd_eigs d)) (percents (sa_max a) sv)) /\
    (if sa_shape a is Some sh then shape = sh /\ size sh = 2%N else exists n m, sd_snap d = Some (n, m) /\ shape = [:: (n %/ sa_d a)%N]).
Proof.
  move=> Hm. rewrite /plot_summary Hm. case: (sd_havok d) => //.
  case Esh: (match sa_shape a with Some _ => _ | None => _ end) => [shape|] //. cbn [bind].
  case: ltnP => // Hi. case: ltnP => // Hr. fold (shown d a).
  case Eh: (has _ (shown d a)) => //.
  have Ha : all (fun i => (i < size (sd_eigs d))%N) (shown d a).
  { apply/allP => i Hin. rewrite ltnNge; apply/negP => Hl. by move/hasPn: (negbT Eh) => /(_ i Hin); rewrite Hl. }
  cbv zeta. case Ec: (conversions _ _ _ _) => [[[time disc] cont]|] //. cbn [bind].
  case Em: (average_modes _ _) => [lm|] //. cbn [bind].
  case Es: (sd_svals d) => [sv|] //. cbn [bind].
  case Ea: [seq `|z| | z <- pick 0 (sd_amps d) _] => [|z0 rest] //. cbn [bind].
  case Ep: (paint _ _) => [pt|] //. cbn [bind].
  rewrite (take_oversize (shown_size d Hi)).
  case Emp: (panels _ _) => [mp|] //. cbn [bind]. case Edp: (panels _ _) => [dp|] //. cbn [bind]. case=> <-.
  exists shape, time, disc, cont, lm, sv, z0, rest, pt. do 4!split => //.
  move: Esh. case: (sa_shape a) => [sh|]; first by case: eqP => // E [<-].
  case: (sd_snap d) => [[n m]|] //. case: eqP => // _ [<-]. by exists n, m.
Qed.

Lemma panelsP {T} (f : nat -> result T) idx l : panels f idx = Ok l ->
  size l = size idx /\ forall j, (j < size idx)%N -> exists2 x, List.nth_error l j = Some x & f (nth 0%N idx j) = Ok x.
Proof.
  elim: idx l => [|i idx IH] l /=; first by case=> <-.
  case Ef: (f i) => [x|] //. cbn [bind]. case Er: (panels f idx) => [r|] //. cbn [bind]. case=> <-.
  have [H1 H2] := IH r Er. split; first by rewrite /= H1. case=> [|j] Hj; first by exists x. exact: H2.
Qed.
Lemma panels_ok {T} (f : nat -> result T) idx : (forall i, i \in idx -> exists x, f i = Ok x) -> exists l, panels f idx = Ok l.
Proof.
  elim: idx => [|i idx IH] H /=; first by eexists.
  have [x ->] := H i (mem_head _ _). cbn [bind]. case: IH => [j Hj|l ->]; last by eexists. apply: H. by rewrite inE Hj orbT.
Qed.

Lemma conversionsP d a lead time disc cont : conversions ex d a lead = Ok (time, disc, cont) -> exists dt,
  [/\ step_of d a time dt, cont = [seq to_cont ex d a dt z | z <- lead],
      disc = (if sd_bop d && ~~ e_close ex (steps (sd_time d)) dt then None else Some [seq to_disc ex d a dt z | z <- lead]),
      sd_bop d -> (1 < size (sd_time d))%N & size cont = size lead].
Proof.
  rewrite /conversions /step_of /to_cont /to_disc /is_continuous. case: (sd_bop d) => /=.
  - case Et: (sd_time d) => [|t0 [|t1 tt]] //=. case=> <- <- <-. exists (t1 - t0).
    rewrite map_id. split=> //. by case: (e_close _ _ _).
  - case: (sd_snap d) => [[n m]|] //. cbn [bind].
    have E td : (if sa_cont a then Ok (td.1, Some [seq e_exp ex (z * td.2) | z <- lead], lead)
                 else Ok (td.1, Some lead, [seq e_log ex z / td.2 | z <- lead])) = Ok (time, disc, cont) ->
       [/\ time = td.1, cont = [seq (if sa_cont a then z else e_log ex z / td.2) | z <- lead]
         , disc = Some [seq (if sa_cont a then e_exp ex (z * td.2) else z) | z <- lead] & size cont = size lead].
    { by case: (sa_cont a) => /=; case=> <- <- <-; rewrite ?map_id ?size_map. }
    case: (sa_t a) => [|t|t] /=; cbn [bind].
    + move=> /E [H1 H2 H3 H4]. case: (sd_orig d) H1 H2 H3 => [[ti dt]|] /= H1 H2 H3.
      * exists dt. split=> //. by rewrite H1.
      * exists 1. split=> //. split=> // n' m' [_ <-]. exact: H1.
    + move=> /(E ([seq i%:R * t | i <- iota 0 m], t)) [H1 H2 H3 H4]. exists t. split=> //. split=> // n' m' [_ <-]. exact: H1.
    + case: t => [|t0 [|t1 tt]] //=. cbn [bind]. move=> /(E (_, t1 - t0)) [H1 H2 H3 H4]. by exists (t1 - t0); split=> //; rewrite H1.
Qed.

Lemma order_perm d : argsort_ok (e_argsort ex) -> perm_eq (order_of d) (iota 0 (size (sd_amps d))).
Proof.
  move=> H. have R : all (fun z => z \is Num.real) [seq - `|z| | z <- sd_amps d].
  { by apply/allP => z /mapP [w _ ->]; rewrite realN normr_real. }
  by have [] := H _ R; rewrite size_map.
Qed.

Lemma in_map_nth (s : seq nat) (l : seq (nat * K)) x : List.In x l -> x.1 \in map fst l.
Proof. elim: l => //= y l IH [<-|/IH]; rewrite inE ?eqxx // => ->; exact: orbT. Qed.

Lemma In_map {A B} (f : A -> B) l y : List.In y (map f l) <-> exists2 x, List.In x l & y = f x.
Proof.
  elim: l => [|x l IH] /=; first by split=> // [[]]. split.
  - case=> [<-|/IH [z Hz E]]; [by exists x; [left|]|by exists z; [right|]].
  - case=> z [<- E|Hz E]; [by left; rewrite E|right; apply/IH; by exists z].
Qed.
Lemma In_mem (T : eqType) (l : seq T) x : List.In x l <-> x \in l.
Proof.
  elim: l => [|y l IH] //=. rewrite inE. split; first by case=> [->|/IH ->]; rewrite ?eqxx ?orbT.
  by case/orP=> [/eqP ->|/IH]; [left|right].
Qed.

(** markers of a panel *)
Lemma eig_panelP pt others_ (rc : K) (ms e : seq C) m : List.In m (eig_panel pt others_ rc ms e) <->
  (exists2 p, List.In p pt & m = Mark p.1 (nth 0 e p.1) p.2 (nth 0 ms p.1)) \/
  (exists2 i, i \in others_ & m = Mark i (nth 0 e i) rc (nth 0 ms i)).
Proof.
  rewrite /eig_panel List.in_app_iff !In_map. split; case=> [[p Hp ->]|[i Hi ->]].
  - by left; exists p. - by right; exists i => //; apply/In_mem. - by left; exists p. - by right; exists i => //; apply/In_mem.
Qed.

Lemma good_lt (ce : seq C) n idx p : size ce = n -> all (fun i => (i < n)%N) idx -> good ce idx p -> (p.1 < n)%N && (p.2 < n)%N.
Proof.
  move=> <- A /andP [H1 H2]. have L1 := allP A _ H1. rewrite L1 /=. move: H2. case: ifP => [Y /eqP ->|_ /eqP -> //].
  by rewrite index_mem.
Qed.

(** Everything is sorted by the magnitude of the amplitudes, and number k is the same mode everywhere: its marker in both
    eigenvalue panels, the k+1 of its title, its column and its dynamics; both titles have a colour its marker has. *)
Theorem C61_aligned d a s modes : argsort_ok (e_argsort ex) -> aligned d modes -> plot_summary ex d a = Ok s ->
  exists (o : seq nat) dt, [/\ perm_eq o (iota 0 (size (sd_eigs d))), step_of d a (su_time s) dt
    & forall k, (k < size (sd_eigs d))%N -> significance (sd_amps d) k (nth 0%N o k)] /\
  (forall m, List.In m (su_cont s) -> (mk_i m < size (sd_eigs d))%N /\
     mk_at m = place a (to_cont ex d a dt (nth 0 (sd_eigs d) (nth 0%N o (mk_i m))))) /\
  (forall m, List.In m (su_disc s) -> (mk_i m < size (sd_eigs d))%N /\
     mk_at m = to_disc ex d a dt (nth 0 (sd_eigs d) (nth 0%N o (mk_i m)))) /\
  [/\ size (su_modes s) = size (shown d a), size (su_dyn s) = size (shown d a)
    & forall j, (j < size (shown d a))%N -> let k := nth 0%N (shown d a) j in let p := nth 0%N o k in
      exists mp dp m, [/\ List.nth_error (su_modes s) j = Some mp, List.nth_error (su_dyn s) j = Some dp, List.In m (su_cont s)
         & [/\ mk_i m = k, mk_colour m = mp_colour mp & mk_colour m = dp_colour dp]] /\
       [/\ mp_number mp = k.+1, dp_values dp = [seq 'Re z | z <- nth [::] (sd_dyn d) p], size (dp_values dp) = size (su_time s)
         & (sa_shape a = None -> (sa_d a <= 1)%N -> mp_rows mp = [:: [seq 'Re z | z <- nth [::] modes p]])]].
Proof.
  move=> HO [Hm Sm Sa Sd] H. have [shape [time [disc [cont [lm [sv [z0 [rest [pt]]]]]]]]] := summary_inv Hm H.
  case=> [[_ Hi _ Ha] [[Ec Em Es El Ep] [[Emp Edp Et Edi Eco] [_ Hsh]]]].
  have P := order_perm d HO. rewrite Sa in P. set o := order_of d in Ec Em El P Edp *.
  have So : size o = size (sd_eigs d) by rewrite (perm_size P) size_iota.
  have Lo k : (k < size (sd_eigs d))%N -> (nth 0%N o k < size (sd_eigs d))%N.
  { move=> Hk. have : nth 0%N o k \in iota 0 (size (sd_eigs d)) by rewrite -(perm_mem P) mem_nth // So. by rewrite mem_iota. }
  have [dt [Hst Hc Hd Hb Hsz]] := conversionsP Ec.
  have Sp : size (pick 0 (sd_eigs d) o) = size (sd_eigs d) by rewrite size_map.
  rewrite Sp in Hsz.
  have Hp k : (k < size (sd_eigs d))%N -> nth 0 (pick 0 (sd_eigs d) o) k = nth 0 (sd_eigs d) (nth 0%N o k).
  { by move=> Hk; rewrite (nth_map 0%N) ?So. }
  have [P1 [P2 P3]] := paintP Ep.
  have G := @pair_loop_good C cont (shown d a) (shown d a) [::] isT (fun _ h => h).
  have Lf i : i \in flat (pair_loop cont [::] (shown d a)) -> (i < size (sd_eigs d))%N.
  { move=> /mem_flatP [p Hpp]. have /andP [L1 L2] := good_lt Hsz Ha (allP G _ Hpp). by case/orP => /eqP ->. }
  have Hmark (ms e : seq C) m : List.In m (eig_panel pt (others (size (sd_eigs d)) (pair_loop cont [::] (shown d a))) (sa_rank_colour a) ms e) ->
     (mk_i m < size (sd_eigs d))%N /\ mk_at m = nth 0 e (mk_i m).
  { move=> /(proj1 (eig_panelP _ _ _ _ _ _)) [[p Hpp ->]|[i]] /=.
    - split=> //. apply: Lf. rewrite -P2. exact: (@in_map_nth [::]).
    - rewrite mem_filter mem_iota /= => /andP [_ Hii] -> /=. by []. }
  exists o, dt. split; first by split=> //; [rewrite Et|move=> k Hk; apply: argsort_significance; rewrite ?Sa].
  split.
  { move=> m. rewrite Eco => /Hmark [L ->]. split=> //. rewrite /place.
    have -> : nth 0 (if sa_flip a then map (@flip C) cont else cont) (mk_i m) =
              (if sa_flip a then flip (nth 0 cont (mk_i m)) else nth 0 cont (mk_i m)).
    { by case: (sa_flip a) => //; rewrite (nth_map 0) // Hsz. }
    rewrite Hc (nth_map 0) ?Sp // Hp //. case: (sa_flip a) => //. by rewrite /flip addrC. }
  split.
  { move=> m. rewrite Edi Hd. case: ifP => // _ /Hmark [L ->]. split=> //. by rewrite (nth_map 0) ?Sp // Hp. }
  have [Q1 Q2] := panelsP Emp. have [R1 R2] := panelsP Edp. split=> // j Hj k p.
  have [mp Hmp Fmp] := Q2 j Hj. have [dp Hdp Fdp] := R2 j Hj.
  have Hk : (k < size (sd_eigs d))%N by apply: (allP Ha); exact: mem_nth.
  move: Fmp. rewrite /draw_mode -/k. case Ecol: (colour_of pt k) => [c|] //. cbn [bind]. cbv zeta.
  case Erow: (if size shape == 2%N then _ else _) => [rows|] //. cbn [bind]. case=> Emp'.
  move: Fdp. rewrite /draw_dyn -/k Ecol. cbv zeta. cbn [bind].
  have -> : nth [::] (pick [::] (sd_dyn d) o) k = nth [::] (sd_dyn d) p by rewrite (nth_map 0%N) ?So.
  case: eqP => // Etime [Edp'].
  have Hin : List.In (Mark k (nth 0 (if sa_flip a then map (@flip C) cont else cont) k) c
     (nth 0 [seq sa_ms a * sqrtC (z / z0) | z <- z0 :: rest] k)) (su_cont s).
  { rewrite Eco. apply: (proj2 (eig_panelP _ _ _ _ _ _)). left. exists (k, c) => //. exact: colour_ofP. }
  exists mp, dp. eexists. split; first by split; [exact: Hmp|exact: Hdp|exact: Hin|rewrite -Emp' -Edp'].
  split; [by rewrite -Emp'|by rewrite -Edp'|by rewrite -Edp' Et|].
  move=> Hs Hd1. rewrite -Emp' /=. move: Hsh Erow. rewrite Hs => [[n [m [_ ->]]]] /=.
  case: eqP => // _ [<-]. rewrite /=. do 2!f_equal.
  move: Em. rewrite /average_modes ltnNge Hd1 /=. case=> <-. by rewrite (nth_map 0%N) ?So.
Qed.

End S.
Print Assumptions C61_aligned.
