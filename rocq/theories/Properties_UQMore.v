(** * C62: the uncertainty plots of BOPDMD: conjugates, eigenvalues, refusals, examples *)
From Coq Require List.
From mathcomp Require Import all_ssreflect all_algebra.
From Verif Require Import Py Model_Plot Model_Summary Spec_Summary Proofs_Summary Properties_Summary Properties_SummaryLimits Model_UQ Spec_UQ Properties_UQ.
Set Implicit Arguments. Unset Strict Implicit. Unset Printing Implicit Defensive.
Import GRing.Theory Num.Theory Order.Theory.
Local Open Scope ring_scope.

Section Conj.
Variable C : numClosedFieldType.
(** the conjugate of an eigenvalue with its amplitude *)
Definition both (p : C * C) : seq (C * C) := [:: p; (p.1^*, p.2^*)].
Lemma count_both (P : pred C) half : seq.count (fun x => P `|x.2|) (flatten (map both half)) = (seq.count (fun x => P `|x.2|) half).*2.
Proof. elim: half => //= p half IH. by rewrite norm_conjC IH addnA addnn doubleD. Qed.
Lemma count_split (x : C) (s : seq C) : all (fun z => z \is Num.real) s -> x \is Num.real ->
  seq.count (fun z => x <= z) s = (seq.count (fun z => (x < z)%R) s + seq.count_mem x s)%N.
Proof.
  move=> A R. elim: s A => //= z s IH /andP [Rz A]. rewrite IH // addnACA. congr (_ + _)%N.
  rewrite le_eqVlt eq_sym. case: eqP => [->|]; by [rewrite ltxx|rewrite addn0].
Qed.

Lemma conj_next (eigs amps : seq C) (lead half : seq (C * C)) (o : seq nat) k :
  size amps = size eigs -> uniq eigs -> perm_eq (zip eigs amps) (lead ++ flatten (map both half)) -> (size lead <= 1)%N ->
  uniq [seq `|p.2| | p <- half] -> (forall p q, p \in half -> q \in lead -> `|p.2| < `|q.2|) ->
  perm_eq o (iota 0 (size eigs)) -> (forall i, (i < size eigs)%N -> significance amps i (nth 0%N o i)) ->
  (k.+1 < size eigs)%N -> odd k = odd (size eigs) -> nth 0 eigs (nth 0%N o k.+1) = (nth 0 eigs (nth 0%N o k))^*.
Proof.
  move=> Sa U P L1 UN LT Po SG Lk Ok.
  have Sz : size (zip eigs amps) = size eigs by rewrite size1_zip ?Sa.
  have CNT (Q : pred C) : seq.count (fun z => Q `|z|) amps = (seq.count (fun x => Q (`|x.2|)%R) lead + (seq.count (fun x => Q (`|x.2|)%R) half).*2)%N.
  { rewrite -count_both -count_cat -(permP P). rewrite -{1}(@unzip2_zip _ _ eigs amps) ?Sa // count_map. exact: eq_count. }
  have Osz : odd (size eigs) = (size lead == 1%N).
  { rewrite -Sz (perm_size P) size_cat oddD. have -> : size (flatten (map both half)) = (size half).*2.
    { elim: (half) => //= p h ->. by rewrite doubleS. }
    rewrite odd_double addbF. by case: (size lead) L1 => [|[|]]. }
  have Lo i : (i < size eigs)%N -> (nth 0%N o i < size eigs)%N.
  { move=> Li. have : nth 0%N o i \in iota 0 (size eigs) by rewrite -(perm_mem Po) mem_nth // (perm_size Po) size_iota. by rewrite mem_iota. }
  set N := [seq `|p.2| | p <- half] in UN.
  have RN : all (fun z => z \is Num.real) N by apply/allP => z /mapP [p _ ->]; rewrite normr_real.
  pose g b := seq.count (fun z => (b < z)%R) N.
  have CH (Q : pred C) : seq.count (fun x => Q `|x.2|) half = seq.count Q N by rewrite count_map; apply: eq_count.
  (* an element that is not the leading real one *)
  have KEY i : (i < size eigs)%N -> (0 < i)%N || (size lead == 0%N) -> let x := (nth 0 eigs (nth 0%N o i), nth 0 amps (nth 0%N o i)) in
     x \in flatten (map both half) /\ (size lead + (g (`|x.2|)%R).*2 <= i < size lead + (g (`|x.2|)%R).+1.*2)%N.
  { move=> Li Hi x. have Hx : x \in lead ++ flatten (map both half).
    { rewrite -(perm_mem P) /x -nth_zip ?Sa //. apply: mem_nth. by rewrite Sz Lo. }
    have /andP [G1 G2] := SG i Li. rewrite -/x.2 in G1 G2.
    rewrite (CNT (fun z => (`|x.2| < z)%R)) CH in G1. rewrite (CNT (fun z => `|x.2| <= z)) CH in G2.
    move: Hx. rewrite mem_cat => /orP [Hx|Hx].
    - exfalso. case: lead L1 Hx LT G2 Hi {P CNT Osz G1} => [|y [|]] // _. rewrite mem_seq1 => /eqP -> LT /=. rewrite lexx.
      have -> : seq.count (fun z => `|y.2| <= z) N = 0%N.
      { apply/eqP. rewrite eqn0Ngt -has_count. apply/hasPn => z /mapP [p Hp ->]. by rewrite lt_geF // LT // mem_head. }
      by rewrite !addn0 ltnS leqn0 => /eqP ->.
    - split=> //. have Hn : `|x.2| \in N.
      { case/flattenP: Hx => s /mapP [p Hp ->]. rewrite !inE => /orP [] /eqP ->; rewrite ?norm_conjC; exact: (map_f (fun p => `|p.2|)). }
      have LD (Q : pred C) : (forall q, q \in lead -> Q `|q.2|) -> seq.count (fun x => Q `|x.2|) lead = size lead.
      { move=> HQ. apply/eqP. rewrite -all_count. apply/allP => q. exact: HQ. }
      have [p Hp Ep] := mapP Hn. rewrite -/(g `|x.2|) in G1.
      rewrite LD in G1; last by move=> q Hq; rewrite Ep; exact: LT.
      rewrite LD in G2; last by move=> q Hq; rewrite Ep; apply: ltW; exact: LT.
      rewrite G1 /=. move: G2. rewrite count_split // ?normr_real // count_uniq_mem // Hn addn1. by []. }
  have E0 : (0 < k)%N || (size lead == 0%N).
  { move: Ok. rewrite Osz. case: k Lk => //= _. by case: (size lead) L1 => [|[|]]. }
  have [X1 /andP [A1 B1]] := KEY k (ltnW Lk) E0. have [X2 /andP [A2 B2]] := KEY k.+1 Lk isT.
  set x := (_, _) in X1 A1 B1. set y := (_, _) in X2 A2 B2. have Nx := KEY.
  have Ek : k = (size lead + (g (`|x.2|)%R).*2)%N.
  { have O1 : odd k = odd (size lead + (g (`|x.2|)%R).*2).
    { rewrite Ok Osz oddD odd_double addbF. by case: (size lead) L1 => [|[|]]. }
    move: B1. rewrite doubleS !addnS ltnS leq_eqVlt => /orP [/eqP E|L].
    - by move: O1; rewrite E /=; case: (odd _).
    - apply/eqP. by rewrite eqn_leq A1 -ltnS L. }
  have Eg : g `|y.2| = g `|x.2|.
  { apply/eqP. rewrite eqn_leq. apply/andP. split.
    - move: A2. rewrite Ek -addnS leq_add2l => L. by rewrite -leq_Sdouble.
    - move: B2. rewrite {1}Ek -addnS ltn_add2l doubleS !ltnS leq_double. by []. }
  have MEM z : z \in flatten (map both half) -> exists2 p, p \in half & z \in both p by case/flattenP => s /mapP [p Hp ->]; exists p.
  have [p Hp Xp] := MEM _ X1. have [q Hq Yq] := MEM _ X2.
  have NB z w : w \in both z -> `|w.2| = `|z.2| by rewrite !inE => /orP [] /eqP ->; rewrite ?norm_conjC.
  rewrite (NB _ _ Xp) (NB _ _ Yq) in Eg.
  have Pn : `|p.2| \in N by exact: (map_f (fun p => `|p.2|)). have Qn : `|q.2| \in N by exact: (map_f (fun p => `|p.2|)).
  have MONO b c : b \in N -> c \in N -> (b < c)%R -> (g c < g b)%N.
  { move=> Hb Hc Lbc. have := count_split RN (allP RN _ Hc). rewrite count_uniq_mem // Hc addn1 -/(g c) => <-.
    apply: sub_count => z /=. exact: lt_le_trans. }
  have Epq : `|p.2| = `|q.2|.
  { have := real_ltgtP (normr_real p.2) (normr_real q.2). case=> // L.
    - by have := MONO _ _ Pn Qn L; rewrite Eg ltnn. - by have := MONO _ _ Qn Pn L; rewrite Eg ltnn. }
  have {q Hq Yq Eg Qn Epq} Yp : y \in both p.
  { suff -> : p = q by []. case/(nthP (0, 0)): Hp => i Li Ei. case/(nthP (0, 0)): Hq => j Lj Ej. rewrite -Ei -Ej.
    congr nth. apply/eqP. by rewrite -(nth_uniq 0 _ _ UN) ?size_map // !(nth_map (0, 0)) // Ei Ej Epq. }
  have NE : y.1 <> x.1.
  { move/eqP. rewrite nth_uniq ?Lo //; last exact: ltnW. have Uo : uniq o by rewrite (perm_uniq Po) iota_uniq.
    have Szo : size o = size eigs by rewrite (perm_size Po) size_iota.
    by rewrite nth_uniq ?Szo // ?(ltnW Lk) // eqn_leq ltnn. }
  change (y.1 = x.1^*). move: Xp Yp NE. rewrite !inE => /orP [] /eqP -> /orP [] /eqP -> //=. by rewrite conjCK.
Qed.

Lemma lead_first (eigs amps : seq C) (q : C * C) (half : seq (C * C)) p :
  size amps = size eigs -> perm_eq (zip eigs amps) (q :: flatten (map both half)) -> (forall p, p \in half -> `|p.2| < `|q.2|) ->
  (p < size eigs)%N -> significance amps 0 p -> nth 0 eigs p = q.1.
Proof.
  move=> Sa P LT Lp /andP [G _]. set x := (nth 0 eigs p, nth 0 amps p).
  have Hx : x \in q :: flatten (map both half).
  { rewrite -(perm_mem P) /x -nth_zip ?Sa //. apply: mem_nth. by rewrite size1_zip ?Sa. }
  move: Hx. rewrite inE => /orP [/eqP <- //|/flattenP [t /mapP [h Hh ->] Hx]].
  have Eh : `|x.2| = `|h.2| by move: Hx; rewrite !inE => /orP [] /eqP ->; rewrite ?norm_conjC.
  move: G. rewrite leqn0 eqn0Ngt -has_count => /hasPn /(_ q.2). rewrite -[nth 0 amps p]/(x.2) Eh LT // => G. suff /G : q.2 \in amps by [].
  have : q \in zip eigs amps by rewrite (perm_mem P) mem_head.
  by move/(map_f snd); rewrite -/(unzip2 _) unzip2_zip ?Sa.
Qed.
End Conj.

Section S.
Variable C : numClosedFieldType.
Variable argsort : seq C -> seq nat.
Implicit Types (u : uqdmd C) (a : uqargs C).

Lemma asked_half r a : ua_pairs a = false -> (forall l, ua_which a <> WList l) -> exists n,
  asked r a = map Posz (take n [seq i <- iota 0 r | (i == 0%N) || (odd i == odd r)]).
Proof.
  rewrite /asked => ->. case: (ua_which a) => [|[n|n]|l] H; [exists r|exists n|eexists|]; [|by []|by []|by have := H l].
  rewrite take_oversize //. by rewrite size_filter -[X in (_ <= X)%N](size_iota 0 r) count_size.
Qed.

(** When the eigenvalues are conjugate pairs with conjugate amplitudes of different magnitudes, and at most one real one with
    the largest amplitude, then the titles without conjugates name pairs: two numbers are those of conjugate eigenvalues, a
    single one is that of the real one. *)
Theorem C62_conjugates u a ps mstd estd lead half : argsort_ok argsort -> bagged u mstd estd -> plot_mode_uq argsort u a = Ok ps ->
  ua_pairs a = false -> (forall l, ua_which a <> WList l) -> uniq (uq_eigs u) ->
  perm_eq (zip (uq_eigs u) (uq_amps u)) (lead ++ flatten [seq [:: p; (p.1^*, p.2^*)] | p <- half]) -> (size lead <= 1)%N ->
  uniq [seq `|p.2| | p <- half] -> (forall p q, p \in half -> q \in lead -> `|p.2| < `|q.2|) ->
  exists o : seq nat, [/\ perm_eq o (iota 0 (size (uq_eigs u))), forall k, (k < size (uq_eigs u))%N -> significance (uq_amps u) k (nth 0%N o k)
   & forall j up, List.nth_error ps j = Some up ->
     (exists k, [/\ (k.+1 < size (uq_eigs u))%N, up_title up = [:: k%:Z + 1; k%:Z + 2]
        & nth 0 (uq_eigs u) (nth 0%N o k.+1) = (nth 0 (uq_eigs u) (nth 0%N o k))^*]) \/
     (up_title up = [:: 1] /\ exists2 q, lead = [:: q] & nth 0 (uq_eigs u) (nth 0%N o 0%N) = q.1)].
Proof.
  move=> HO [Fi St Sm [Sa Sd Se]] H NP NL U P L1 UN LT. set r := size (uq_eigs u).
  have Po := order_uq u HO. rewrite Sa -/r in Po. set o := argsort _ in Po.
  have SG k : (k < r)%N -> significance (uq_amps u) k (nth 0%N o k) by move=> Hk; apply: argsort_significance; rewrite ?Sa.
  exists o. split=> // j up Hj. have [_ _ /(_ j up Hj)] := mode_uq_inv H. rewrite Sm -/r. case=> Lj _ _ _ ->.
  have -> : (mode_indices r a).2 = false by rewrite /mode_indices NP; case: (ua_which a) NL => // l /(_ l).
  have [n En] := asked_half r NP NL. rewrite En size_map in Lj *. set s := take n _ in Lj *.
  rewrite (nth_map 0%N) //=. set k := nth 0%N s j.
  have Ks : k \in s by exact: mem_nth.
  have := mem_take Ks. rewrite mem_filter mem_iota add0n => /andP [Kp /= Kr].
  have Us : uniq s by rewrite take_uniq // filter_uniq // iota_uniq.
  have S0 : nth 0%N s 0 = 0%N.
  { rewrite /s. case: n {s En Lj k Ks Kp Kr Us} => [|n]; first by rewrite take0. by case: (r) => [|m] //=. }
  have Or : odd r = (size lead == 1%N).
  { rewrite -[r](@size1_zip _ _ (uq_eigs u) (uq_amps u)) ?Sa // (perm_size P) size_cat oddD.
    have -> : size (flatten (map (@both C) half)) = (size half).*2 by elim: (half) => //= p h ->; rewrite doubleS.
    rewrite odd_double addbF. by case: (size lead) L1 => [|[|]]. }
  case: ifP => [/andP [O1 /eqP J0]|NJ].
  - right. rewrite /k J0 S0 add0r. split=> //. move: Or. rewrite O1 => /esym /eqP. case: lead P L1 LT => [|q [|]] //= P _ LT _. exists q => //.
    apply: (lead_first Sa P) => [p Hp||]; [by apply: LT => //; exact: mem_head| |].
    + have : nth 0%N o 0 \in iota 0 r by rewrite -(perm_mem Po) mem_nth // (perm_size Po) size_iota (leq_ltn_trans _ Kr). by rewrite mem_iota.
    + apply: SG. exact: leq_ltn_trans Kr.
  - left. have Ok : odd k = odd r.
    { case/orP: Kp => /eqP // K0. rewrite K0 /=. case R: (odd r) NJ => //= /eqP []. apply/eqP.
      rewrite -(nth_uniq 0%N _ _ Us) //; last exact: leq_ltn_trans Lj. by rewrite S0 -/k K0. }
    have Lk : (k.+1 < r)%N.
    { rewrite ltn_neqAle Kr andbT. apply/eqP => E. move: Ok. rewrite -E /=. by case: (odd k). }
    exists k. split=> //. exact: (conj_next Sa U P L1 UN LT Po SG Lk Ok).
Qed.

(** The eigenvalue picture: around the place of every eigenvalue circles of one and two of its deviations, points at the
    eigenvalues, crosses at the true ones, all with the same axes. *)
Theorem C62_eigs u mstd estd truth f : bagged u mstd estd -> exists g, plot_eig_uq u truth f = Ok g /\
  [/\ eu_points g = [seq spot f z | z <- uq_eigs u],
      eu_truth g = omap (map (spot f)) truth
    & forall c rad, (c, rad) \in eu_circles g <-> exists2 i, (i < size (uq_eigs u))%N &
        c = spot f (nth 0 (uq_eigs u) i) /\ (rad = nth 0 estd i \/ rad = 2%:R * nth 0 estd i)].
Proof.
  move=> [Fi St Sm [Sa Sd Se]]. rewrite /plot_eig_uq Fi St. eexists. split; first by [].
  have T s : (if f then map (@flip C) s else s) = map (spot f) s.
  { rewrite /spot. case: f; last by rewrite map_id. apply: eq_map => z. by rewrite /flip addrC. }
  split=> /=; [exact: T|by case: truth => //= s; rewrite T|]. rewrite T => c rad.
  have Sz : size (zip (map (spot f) (uq_eigs u)) estd) = size (uq_eigs u) by rewrite size2_zip ?size_map ?Se.
  have E i : (i < size (uq_eigs u))%N -> nth (0, 0) (zip (map (spot f) (uq_eigs u)) estd) i = (spot f (nth 0 (uq_eigs u) i), nth 0 estd i).
  { move=> Li. by rewrite nth_zip ?size_map ?Se // (nth_map 0). }
  split.
  - case/flattenP => t /mapP [p /(nthP (0, 0)) [i Li <-] ->]. rewrite Sz in Li. rewrite E // !inE /= => /orP [] /eqP [-> ->]; exists i => //; split=> //.
    + by right. + by left.
  - case=> i Li [-> Hr]. apply/flattenP. eexists; first by apply/mapP; exists (nth (0, 0) (zip (map (spot f) (uq_eigs u)) estd) i); [apply: mem_nth; rewrite Sz|].
    rewrite E //= !inE. by case: Hr => ->; rewrite eqxx ?orbT.
Qed.

(** Nothing is drawn before a fit, nor after a fit without bagging. *)
Theorem C62_refuses u a truth f : ~~ uq_fitted u \/ uq_std u = None ->
  plot_mode_uq argsort u a = Err ValueError /\ plot_eig_uq u truth f = Err ValueError.
Proof. rewrite /plot_mode_uq /plot_eig_uq. case=> [->//|->]. by case: (uq_fitted u). Qed.

(** The modes are drawn for every object with bagging when existing modes are asked for, there is a column to draw in and the
    modes have d values for every point of the grid. *)
Theorem C62_draws u a mstd estd n : argsort_ok argsort -> bagged u mstd estd -> (0 < ua_cols a)%N -> ua_x a = None -> ua_y a = None ->
  (forall z, z \in asked (size (uq_eigs u)) a -> exists k, counted (size (uq_eigs u)) z k) ->
  all (fun v => size v == n * maxn 1 (ua_d a))%N (uq_modes u ++ mstd) ->
  match ua_shape a with
  | None => (0 < ua_d a)%N /\ uq_rows u = (n * ua_d a)%N
  | Some [:: w] => n = w
  | Some [:: w; h] => n = (w * h)%N
  | _ => False
  end -> exists ps, plot_mode_uq argsort u a = Ok ps.
Proof.
  move=> HO [Fi St Sm [Sa Sd Se]] C0 X0 Y0 HA HS Hsh. rewrite /plot_mode_uq Fi St.
  have := asked_indices (size (uq_modes u)) a. case: (mode_indices _ a) => [idx pairs] /= Ei. rewrite Sm in Ei *. rewrite -Ei in HA.
  have [shape Esh Hn] : exists2 shape, match ua_shape a with
       | Some s => Ok s | None => if ua_d a == 0%N then Err ZeroDivisionError else Ok [:: (uq_rows u %/ ua_d a)%N] end = Ok shape &
       shape = [:: n] \/ exists w h, shape = [:: w; h] /\ n = (w * h)%N.
  { move: Hsh. case: (ua_shape a) => [[|w [|h [|]]]|] //.
    - move=> ->. exists [:: w] => //. by left.
    - move=> ->. exists [:: w; h] => //. right. by exists w, h.
    - case=> D0 ->. rewrite eqn0Ngt D0 mulnK //. eexists; first by []. by left. }
  rewrite Esh. cbn [bind]. rewrite X0 Y0.
  have Po := order_uq u HO. rewrite Sa in Po. set o := argsort _ in Po *. have So : size o = size (uq_eigs u) by rewrite (perm_size Po) size_iota.
  have Lo k : (k < size (uq_eigs u))%N -> (nth 0%N o k < size (uq_eigs u))%N.
  { move=> Hk. have : nth 0%N o k \in iota 0 (size (uq_eigs u)) by rewrite -(perm_mem Po) mem_nth // So. by rewrite mem_iota. }
  have AV (vs : seq (seq C)) : size vs = size (uq_eigs u) -> all (fun v => size v == n * maxn 1 (ua_d a))%N vs ->
    exists us, [/\ average_modes (ua_d a) (pick [::] vs o) = Ok us, size us = size (uq_eigs u) & forall k, (k < size (uq_eigs u))%N -> size (nth [::] us k) = n].
  { move=> Sv Av. have Hz k : (k < size (uq_eigs u))%N -> size (nth [::] (pick [::] vs o) k) = (n * maxn 1 (ua_d a))%N.
    { move=> Hk. rewrite (nth_map 0%N) ?So //. apply/eqP. apply: (allP Av). by rewrite mem_nth // Sv Lo. }
    rewrite /average_modes. case: ltnP => D.
    - have M : maxn 1 (ua_d a) = ua_d a by apply/maxn_idPr; exact: ltnW.
      have -> : all (fun c => ua_d a * (size c %/ ua_d a) == size c)%N (pick [::] vs o).
      { apply/(all_nthP [::]) => k. rewrite size_map So => Hk. rewrite Hz // M mulnK ?(ltnW D) //. by rewrite mulnC. }
      eexists; split; [by []|by rewrite !size_map So|]. move=> k Hk. rewrite (nth_map [::]); last by rewrite size_map So. by rewrite size_average Hz // M mulnK // ltnW.
    - eexists; split; [by []|by rewrite size_map So|]. move=> k Hk. rewrite Hz //. have -> : maxn 1 (ua_d a) = 1%N by apply/maxn_idPl. by rewrite muln1. }
  move: HS. rewrite all_cat => /andP [HS1 HS2].
  have [m1 [Em1 Sz1 Hm1]] := AV _ Sm HS1. have [m2 [Em2 Sz2 Hm2]] := AV _ Sd HS2.
  have -> : match shape with [::] => Err IndexError | w :: _ => Ok w end = Ok (nth 0%N shape 0%N) by case: Hn => [->|[w [h [-> _]]]].
  cbn [bind]. rewrite Em1. cbn [bind]. rewrite Em2. cbn [bind]. rewrite eqn0Ngt C0 /=.
  have DR (v : seq C) : size v = n -> exists r, draw_values (size shape) (nth 0%N shape 0%N) (nth 0%N shape 1%N) (ua_order a) v = Ok r.
  { move=> Sv. rewrite /draw_values. case: Hn => [->|[w [h [-> En]]]] /=; first by rewrite Sv eqxx; eexists.
    apply: reshape2_ok. by rewrite Sv En mulnC. }
  apply: panels_ok => j. rewrite mem_iota add0n => /andP [_ Lj]. have [k Ck] := HA _ (mem_nth 0 Lj).
  have /at_indexP Ek := Ck. have [Lk _] := Ck. rewrite Sz1 Ek. cbn [bind].
  have [x1 ->] := DR _ (Hm1 k Lk). cbn [bind]. have [x2 ->] := DR _ (Hm2 k Lk). cbn [bind]. by eexists.
Qed.
End S.

(** A concrete case: one real eigenvalue and a conjugate pair.  With [big] the amplitude of the real one: the titles name the
    pair when it is 3, and wrongly name one of the pair together with the real one when it is 1. *)
Section Ex.
Variable C : numClosedFieldType.
Definition uq_ex (big : C) : uqdmd C := UQDmd true 2 [:: 'i; - 'i; 1] [:: 2%:R; 2%:R; big] [:: [:: 1; 'i]; [:: 1; - 'i]; [:: 0; 1]]
  (Some ([:: [:: 1; 2%:R]; [:: 1; 2%:R]; [:: 0; 1]], [:: 1; 1; 2%:R])).
Definition uq_args : uqargs C := UQArgs None None 1 None OrderC 4 (@WAll) false.

Lemma uq_ex_draws big : exists ps, plot_mode_uq (@sort_positions C) (uq_ex big) uq_args = Ok ps.
Proof.
  apply: (@C62_draws C _ _ _ _ _ 2); try by [|exact: sort_positions_ok]. 
  move=> z. rewrite !inE => /orP [] /eqP ->; [exists 0%N|exists 1%N]; by split=> //; left.
Qed.
Lemma ex_i_neq : ('i : C) != - 'i.
Proof. by rewrite -addr_eq0 -mulr2n -mulr_natl mulf_eq0 pnatr_eq0 /= neq0Ci. Qed.
Lemma ex_i1 : ('i : C) != 1 /\ (- 'i : C) != 1.
Proof.
  have H (z : C) : z ^+ 2 = -1 -> z != 1.
  { move=> E. apply/eqP => E1. move: E. rewrite E1 expr1n => /eqP. by rewrite -subr_eq0 opprK -(natrD C 1 1) pnatr_eq0. }
  by rewrite !H ?sqrrN ?sqrCi.
Qed.
Example C62_ex : exists ps, [/\ argsort_ok (@sort_positions C), bagged (uq_ex 3%:R) [:: [:: 1; 2%:R]; [:: 1; 2%:R]; [:: 0; 1]] [:: 1; 1; 2%:R],
  plot_mode_uq (@sort_positions C) (uq_ex 3%:R) uq_args = Ok ps, uniq (uq_eigs (uq_ex 3%:R))
 & exists lead half, [/\ perm_eq (zip (uq_eigs (uq_ex 3%:R)) (uq_amps (uq_ex 3%:R))) (lead ++ flatten [seq [:: p; (p.1^*, p.2^*)] | p <- half]),
     (size lead <= 1)%N, uniq [seq `|p.2| | p <- half] & forall p q, p \in half -> q \in lead -> `|p.2| < `|q.2| ]].
Proof.
  have [ps H] := uq_ex_draws 3%:R. exists ps. split=> //; first exact: sort_positions_ok.
  - have [A B] := ex_i1. by rewrite /= !inE negb_or ex_i_neq A B.
  - exists [:: (1, 3%:R)], [:: ('i, 2%:R)]. split=> //=.
    + rewrite conjCi conjC_nat. by rewrite -[X in perm_eq _ X]cat1s perm_sym perm_catC.
    + move=> p q. rewrite !inE => /eqP -> /eqP ->. by rewrite !normr_nat ltr_nat.
Qed.

Theorem C62_pairs_refuted : exists ps o, [/\ plot_mode_uq (@sort_positions C) (uq_ex 1) uq_args = Ok ps,
    [seq up_title up | up <- ps] = [:: [:: 1]; [:: 2%:Z; 3%:Z]],
    perm_eq o (iota 0 3), forall k, (k < 3)%N -> significance (uq_amps (uq_ex 1)) k (nth 0%N o k)
  & nth 0 (uq_eigs (uq_ex 1)) (nth 0%N o 1) = (nth 0 (uq_eigs (uq_ex 1)) (nth 0%N o 0))^* /\
    nth 0 (uq_eigs (uq_ex 1)) (nth 0%N o 2) <> (nth 0 (uq_eigs (uq_ex 1)) (nth 0%N o 1))^*].
Proof.
  have [ps H] := uq_ex_draws 1. exists ps, [:: 0; 1; 2]%N. split=> //.
  - have [_ Sz Hp] := mode_uq_inv H. case: ps H Sz Hp => [|u0 [|u1 [|]]] H // _ Hp.
    have [_ _ _ _ E0] := Hp 0%N u0 erefl. have [_ _ _ _ E1] := Hp 1%N u1 erefl. by rewrite /= E0 E1.
  - case=> [|[|[|]]] //= _; rewrite /significance /= !normr_nat ?normr1 ?ltxx ?lexx ?(ltr_nat C 1 2) ?(ltr_nat C 2 1) ?(ler_nat C 1 2) ?(ler_nat C 2 1) //.
  - rewrite /= conjCi. split=> //. rewrite raddfN /= conjCi opprK. apply/eqP. rewrite eq_sym. by have [] := ex_i1.
Qed.
End Ex.
Print Assumptions C62_conjugates.
Print Assumptions C62_eigs.
Print Assumptions C62_refuses.
Print Assumptions C62_draws.
Print Assumptions C62_pairs_refuted.
Print Assumptions C62_ex.
