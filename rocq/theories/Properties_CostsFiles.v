(** * C46: mrCOSTS, the files of the levels *)
From Coq Require Import QArith String Ascii List.
From mathcomp Require Import all_ssreflect all_fingroup all_algebra.
From Verif Require Import Py LinAlg Model_Operator Model_BOP Model_CostsWin Model_Costs Model_MrCosts Model_CostsIO.
From Verif Require Import Spec_CostsIO Proofs_CostsIO Properties_CostsIO.
From Verif Require Model_Utils.
Set Implicit Arguments. Unset Strict Implicit. Unset Printing Implicit Defensive.
Import GRing.Theory Num.Theory.
Local Open Scope ring_scope.

Section Files.
Variable C : numClosedFieldType.
Variable x : ext C.
Variable y : cext C.
Variable n : nat.
Implicit Types (lev : seq (obj C n)) (fs : files C n).
Let lens lev : seq BinNums.Z := [seq level_length o | o <- lev].

Lemma find_write fs w d w' : find_file (write fs w d) w' = if BinInt.Z.eqb w w' then Some d else find_file fs w'.
Proof.
rewrite /find_file; elim: fs => [|[u e] fs IH] /=; first by case: ifP.
case E: (BinInt.Z.eqb u w) => /=.
  by move/BinInt.Z.eqb_eq: E => ->; case: (BinInt.Z.eqb w w').
case E': (BinInt.Z.eqb u w') => //=.
case E2: (BinInt.Z.eqb w w') => //; move/BinInt.Z.eqb_eq: E2 E => ->; move/BinInt.Z.eqb_eq: E' => ->.
by rewrite BinInt.Z.eqb_refl.
Qed.
(** the file named after a window length holds the last level of that length *)
Lemma to_netcdf_find lev fs fs' w : to_netcdf fs lev = Ok fs' ->
  (w \notin lens lev -> find_file fs' w = find_file fs w) /\
  (w \in lens lev -> exists o d, [/\ In o lev, level_length o = w, to_xarray o = Ok d & find_file fs' w = Some d]).
Proof.
elim: lev fs => [|o lev IH] fs /=; first by move=> [<-].
case E: (to_xarray o) => [d|] //; cbn [bind] => /IH[H1 H2]; rewrite inE.
case L: (w \in lens lev); first by rewrite orbT; split=> // _; have [o' [d' [I1 I2 I3 I4]]] := H2 L; exists o', d'; split=> //; right.
rewrite orbF H1 ?L // find_write -/(level_length o); split.
  by move=> N; rewrite (_ : BinInt.Z.eqb _ _ = false) //; apply/negbTE; rewrite eq_sym in N.
by move=> /eqP->; exists o, d; rewrite BinInt.Z.eqb_refl; split=> //; left.
Qed.
Lemma saved_length (o : obj C n) d : to_xarray o = Ok d -> ds_length d = level_length o.
Proof. by move=> /savedE[f [b [rk [t [l [_ [_ _ ->]]]]]]]. Qed.

Definition from_level lev (d : dataset C n) : Prop := exists o, [/\ In o lev, level_length o = ds_length d & to_xarray o = Ok d].
Lemma load_filesP lev fs names l : to_netcdf [::] lev = Ok fs -> load_files fs names = Ok l ->
  [seq ds_length d | d <- l] = names /\ forall d, In d l -> from_level lev d.
Proof.
move=> Hs; elim: names l => [|w names IH] l /=; first by move=> [<-].
case Ff: (find_file fs w) => [d|] //; case El: (load_files fs names) => [l'|] //; cbn [bind] => -[<-].
have [H1 H2] := to_netcdf_find w Hs; case L: (w \in lens lev); last by move: Ff; rewrite H1 ?L.
have [o [d' [I1 I2 I3]]] := H2 L; rewrite Ff => -[E]; have [Em Hl] := IH _ El; subst d'.
split; first by rewrite /= Em (saved_length I3) I2.
move=> e [<-|]; last exact: Hl.
by exists o; rewrite (saved_length I3).
Qed.
Lemma load_files_ok lev fs names : to_netcdf [::] lev = Ok fs -> {subset names <= lens lev} -> exists l, load_files fs names = Ok l.
Proof.
move=> Hs; elim: names => [|w names IH] Sb /=; first by eexists.
have [_ H2] := to_netcdf_find w Hs; have [|o [d' [_ _ _ ->]]] := H2; first by apply: Sb; rewrite inE eqxx.
have [|l ->] := IH; first by move=> v I; apply: Sb; rewrite inE I orbT.
by eexists.
Qed.

Lemma in_sort (T : Type) (leT : rel T) l d : In d (sort leT l) -> In d l.
Proof.
case: l => [|d0 l']; first by [].
set l := d0 :: l'; have El : l = [seq nth d0 l i | i <- iota 0 (size l)] by rewrite -/(mkseq _ _) mkseq_nth.
rewrite {1}El sort_map => /in_map_iff[i [<- I]].
have : i \in sort (relpre (nth d0 l) leT) (iota 0 (size l)).
  by elim: (sort _ _) I => //= a s IH [->|/IH]; rewrite inE ?eqxx // => ->; rewrite orbT.
rewrite mem_sort mem_iota add0n => /andP[_ L]; rewrite {I El}.
elim: l i L => // a s IH [|i] /= L; first by left.
by right; apply: IH.
Qed.
Lemma leb_total : total BinInt.Z.leb.
Proof. by move=> a b; case: (BinInt.Z.leb_spec a b) => //= /BinInt.Z.lt_le_incl/BinInt.Z.leb_le ->. Qed.
Lemma leb_trans : transitive BinInt.Z.leb.
Proof. by move=> b a c /BinInt.Z.leb_le H /BinInt.Z.leb_le H'; apply/BinInt.Z.leb_le; apply: BinInt.Z.le_trans H H'. Qed.
Lemma leb_anti : antisymmetric BinInt.Z.leb.
Proof. by move=> a b /andP[/BinInt.Z.leb_le H /BinInt.Z.leb_le H']; apply: BinInt.Z.le_antisymm. Qed.
Lemma sort_lengths l : [seq ds_length d | d <- sort (@by_length C n) l] = sort BinInt.Z.leb [seq ds_length d | d <- l].
Proof. by rewrite sort_map. Qed.

Lemma load_levelsP (l : seq (dataset C n)) lo : load_levels l = Ok lo -> Forall2 (fun d o' => from_xarray (blank C 0) d = Ok o') l lo.
Proof.
elim: l lo => [|d l IH] lo /=; first by move=> [<-].
by case E: (from_xarray _ d) => [o|] //; cbn [bind]; case El: (load_levels l) => [r|] // -[<-]; constructor=> //; apply: IH.
Qed.
Lemma from_netcdfE fs names r : from_netcdf fs names = Ok r -> exists l,
  [/\ load_files fs names = Ok l, load_levels (sort (@by_length C n) l) = Ok (re_levels r), re_windows r = lens (re_levels r)
    & re_ranks r = [seq odflt (Model_Utils.RInt BinNums.Z0) (cc_rank (c_cfg (ob_c o))) | o <- re_levels r]].
Proof.
rewrite /from_netcdf; case E: (load_files _ _) => [l|] //; cbn [bind]; case Es: (sort _ l) => [|d0 l'] //.
rewrite -Es; case El: (load_levels _) => [lo|] //; cbn [bind] => -[<-]; by exists l.
Qed.

(** Every level comes back, in the order of the window lengths. *)
Theorem C46_levels lev fs names r : (forall o, In o lev -> own_keys (ob_kw o)) ->
  to_netcdf [::] lev = Ok fs -> perm_eq names (lens lev) -> from_netcdf fs names = Ok r ->
  re_windows r = sort BinInt.Z.leb (lens lev) /\
  Forall2 (fun w o' => exists o, [/\ In o lev, level_length o = w & restored_as o o']) (re_windows r) (re_levels r).
Proof.
move=> K Hs Pn /from_netcdfE[l [El Lo Ew _]]; have [Em Hl] := load_filesP Hs El.
have Es : [seq ds_length d | d <- sort (@by_length C n) l] = sort BinInt.Z.leb (lens lev).
  by rewrite sort_lengths Em; apply/perm_sortP => //; [exact: leb_total | exact: leb_trans | exact: leb_anti].
have Hs' d : In d (sort (@by_length C n) l) -> from_level lev d by move=> H; apply: Hl; apply: in_sort H.
rewrite Ew; move: {El Em Ew} (load_levelsP Lo) Es Hs'; move: (sort _ l) (re_levels r) (sort _ (lens lev)) => l1 lo ws.
move=> F; elim: F ws => {l1 lo} [|d o' l1 lo Ed _ IH] ws Es' Hd; first by rewrite -Es' /=; split.
have [o [Io Eo Sd]] : from_level lev d by apply: Hd; left.
have Ra := C46_round_trip (K o Io) Sd Ed.
have Lo' : level_length o' = ds_length d by rewrite -Eo /level_length (sr_win (ra_results Ra)).
case: ws Es' => // w ws [Ew' Es']; have [|Ew Hf] := IH _ Es'; first by move=> e I; apply: Hd; right.
split; first by rewrite /= Ew Lo' Ew'.
by constructor=> //; exists o; rewrite Lo'; split.
Qed.

Lemma In_map (A : Type) (B : eqType) (f : A -> B) l a : In a l -> f a \in map f l.
Proof. by elim: l => //= b l IH [->|/IH H]; rewrite inE ?eqxx ?H ?orbT. Qed.
Lemma uniq_inj (A : Type) (B : eqType) (f : A -> B) l a b : uniq (map f l) -> In a l -> In b l -> f a = f b -> a = b.
Proof.
elim: l => //= e l IH /andP[N U] [<-|Ia] [<-|Ib] // E; last exact: IH.
- by case/negP: N; rewrite E; apply: In_map.
- by case/negP: N; rewrite -E; apply: In_map.
Qed.

Lemma Forall2_cons_iff_ok (A B : Type) (P : A -> B -> Prop) a l lo : Forall2 P (a :: l) lo ->
  if lo is b :: lo' then P a b /\ Forall2 P l lo' else False.
Proof. by move=> F; inversion F. Qed.

(** With different window lengths in increasing order (as mrCOSTS is meant to be used) every level is in its place. *)
Theorem C46_in_order lev fs names r : (forall o, In o lev -> own_keys (ob_kw o)) ->
  sorted BinInt.Z.leb (lens lev) -> uniq (lens lev) ->
  to_netcdf [::] lev = Ok fs -> perm_eq names (lens lev) -> from_netcdf fs names = Ok r ->
  re_windows r = lens lev /\ Forall2 (@restored_as C n) lev (re_levels r).
Proof.
move=> K So U Hs Pn Hr; have [Ew H] := C46_levels K Hs Pn Hr.
rewrite sorted_sort // in Ew; last exact: leb_trans.
rewrite Ew in H; split=> //; move: H.
have : forall l1, (forall o, In o l1 -> In o lev) ->
  Forall2 (fun w o' => exists o, [/\ In o lev, level_length o = w & restored_as o o']) (lens l1) (re_levels r) ->
  Forall2 (@restored_as C n) l1 (re_levels r).
  move: (re_levels r) => lo l1; elim: l1 lo => [|o l1 IH] lo Sb /= F; first by inversion F.
  have {F} := Forall2_cons_iff_ok F; case: lo => // o' lo F.
  case: F => [[o2 [I2 E2 Ra]] F]; constructor; last by apply: IH => // e I; apply: Sb; right.
  suff -> : o = o2 by [].
  by apply: (uniq_inj U) => //; apply: Sb; left.
by move=> H; apply: H => o.
Qed.

(** and the arguments of the restored object are those the levels were made with *)
Definition step_of (o : obj C n) : BinNums.Z := odflt BinNums.Z0 (w_step (c_win (ob_c o))).
Definition rank_used (o : obj C n) : Model_Utils.rank_arg := odflt (Model_Utils.RInt BinNums.Z0) (cc_rank (c_cfg (ob_c o))).
Lemma from_netcdf_args fs names r : from_netcdf fs names = Ok r ->
  [/\ re_steps r = [seq step_of o | o <- re_levels r], re_ranks r = [seq rank_used o | o <- re_levels r],
      re_global r = [seq cc_global (c_cfg (ob_c o)) | o <- re_levels r], re_ncomp r = [seq omap (@ba_n C) (c_bands (ob_c o)) | o <- re_levels r] &
      exists o l', [/\ re_levels r = o :: l', re_kw r = ob_kw o & re_times r = w_times (c_win (ob_c o))]].
Proof.
rewrite /from_netcdf; case E: (load_files _ _) => [l|] //; cbn [bind]; case Es: (sort _ l) => [|d0 l'] //.
case El: (load_levels _) => [lo|] //; cbn [bind] => -[<-]; split=> //.
have := load_levelsP El => F; have := Forall2_cons_iff_ok F; cbn [re_levels re_kw re_times].
case: lo {El F} => // o lo [Fo _]; exists o, lo; split=> //; move: Fo.
by rewrite /from_xarray; case: (load _ _ _) => // -[kw tr] [<-].
Qed.
Theorem C46_arguments lev fs names r : (forall o, In o lev -> own_keys (ob_kw o)) ->
  sorted BinInt.Z.leb (lens lev) -> uniq (lens lev) ->
  to_netcdf [::] lev = Ok fs -> perm_eq names (lens lev) -> from_netcdf fs names = Ok r ->
  [/\ re_steps r = [seq step_of o | o <- lev], re_ranks r = [seq rank_used o | o <- lev],
      re_global r = [seq cc_global (c_cfg (ob_c o)) | o <- lev], re_ncomp r = [seq omap (@ba_n C) (c_bands (ob_c o)) | o <- lev] &
      exists o l' o', [/\ lev = o :: l', re_times r = w_times (c_win (ob_c o)), restored_as o o' & re_kw r = ob_kw o']].
Proof.
move=> K So U Hs Pn Hr; have [_ F] := C46_in_order K So U Hs Pn Hr; have [-> -> -> -> [o' [l' [El -> ->]]]] := from_netcdf_args Hr.
have E (A : Type) (f : obj C n -> A) : (forall o o', restored_as o o' -> f o' = f o) -> [seq f o | o <- re_levels r] = [seq f o | o <- lev].
  by move=> H; elim: F => //= a b l1 l2 /H -> _ ->.
split; [| | | |by move: F; rewrite El; case: lev {K So U Hs Pn Hr E} => [|o lev] F; [inversion F|];
  have [Ra _] := Forall2_cons_iff_ok F; exists o, lev, o'; rewrite (sr_win (ra_results Ra))].
all: by apply: E => a b [[Ef Eb Ew Er Eg] _ _ _]; rewrite /step_of /rank_used ?Ew ?Er ?Eg ?Eb.
Qed.

(** Reading succeeds when the levels can be restored one by one. *)
Theorem C46_readable lev fs names : (forall o, In o lev -> own_keys (ob_kw o)) ->
  (forall o v, In o lev -> In ("eig_constraints"%string, v) (ob_kw o) -> restorable v) ->
  to_netcdf [::] lev = Ok fs -> (0 < size names)%N -> {subset names <= lens lev} -> exists r, from_netcdf fs names = Ok r.
Proof.
move=> K Re Hs N0 Sb; have [l El] := load_files_ok Hs Sb; have [Em Hl] := load_filesP Hs El.
rewrite /from_netcdf El; cbn [bind]; case Es: (sort _ l) => [|d0 l'].
  by move: N0; rewrite -Em size_map -(size_sort (@by_length C n)) Es.
have [lo ->] : exists lo, load_levels (d0 :: l') = Ok lo; last by eexists.
have : forall d, In d (d0 :: l') -> from_level lev d by rewrite -Es => d H; apply: Hl; apply: in_sort H.
elim: (d0 :: l') => [|d l1 IH] Hd /=; first by eexists.
have [o [Io _ Sd]] : from_level lev d by apply: Hd; left.
have := C46_restorable (blank C 0) (K o Io) Sd; case Ex: List.existsb.
  by move/List.existsb_exists: Ex => [[k v] [I /= /andP[/String.eqb_eq Ek]]]; rewrite Ek in I; rewrite (Re o v Io I).
by move=> [o' ->]; cbn [bind]; have [|lo ->] := IH; [move=> e I; apply: Hd; right | eexists].
Qed.

(** Levels of the same window length overwrite each other: one file, and one level, is all that is left of them. *)
Lemma write_keys fs w d : [seq p.1 | p <- write fs w d] = (if w \in [seq p.1 | p <- fs] then [seq p.1 | p <- fs] else rcons [seq p.1 | p <- fs] w).
Proof.
elim: fs => [|[u e] fs IH] //; rewrite /write -/write; have -> : BinInt.Z.eqb u w = (w == u) by rewrite eq_sym.
by rewrite !map_cons /= inE; case: eqP => [->|_] //=; rewrite IH; case: ifP.
Qed.
Lemma netcdf_keys lev fs fs' : to_netcdf fs lev = Ok fs' -> uniq [seq p.1 | p <- fs] ->
  uniq [seq p.1 | p <- fs'] /\ [seq p.1 | p <- fs'] =i [seq p.1 | p <- fs] ++ lens lev.
Proof.
elim: lev fs => [|o lev IH] fs /=; first by move=> [<-] U; split=> // z; rewrite cats0.
case: (to_xarray o) => [d|] //; cbn [bind] => /IH H U; have := H; rewrite write_keys -/(level_length o); case: ifP => I {}H.
  have [U' M] := H U; split=> // z; rewrite M !mem_cat inE; case: eqP => [->|] //=.
  by rewrite I.
have [|U' M] := H; first by rewrite rcons_uniq I.
by split=> // z; rewrite M !mem_cat mem_rcons !inE; case: eqP; rewrite ?orbT.
Qed.
Theorem C46_overwritten_refuted lev fs r : to_netcdf [::] lev = Ok fs -> ~~ uniq (lens lev) ->
  from_netcdf fs [seq p.1 | p <- fs] = Ok r -> (size (re_levels r) < size lev)%N.
Proof.
move=> Hs Nu /from_netcdfE[l [El Lo _ _]]; have [Em _] := load_filesP Hs El; have [//|U] := netcdf_keys Hs.
rewrite [_ ++ _]/(lens lev) => M.
have -> : size (re_levels r) = size fs.
  have -> : size (re_levels r) = size (sort (@by_length C n) l) by elim: (load_levelsP Lo) => //= d o' l1 lo _ _ ->.
  by rewrite size_sort -(size_map (@ds_length C n)) Em size_map.
rewrite -(size_map fst fs) -(size_map (@level_length C n) lev) -/(lens lev) (uniq_size_uniq U M) in Nu *.
by rewrite ltn_neqAle eq_sym Nu uniq_leq_size // => z; rewrite M.
Qed.

(** ** What the restored levels are good for *)
Definition the_same (l l' : seq (costs C n)) : Prop := Forall2 (@same_results C n) l l'.
Lemma same_ds l l' : the_same l l' -> all_ok (@to_ds C n) l' = all_ok (@to_ds C n) l.
Proof. by elim=> // c c' l1 l1' [Ef Eb _ Er _] _ IH /=; rewrite IH /to_ds Ef Eb Er. Qed.
Lemma same_level_bands ranks ng cols (c c' : costs C n) cls : same_results c c' -> level_bands x ranks ng cols c' cls = level_bands x ranks ng cols c cls.
Proof. by move=> [Ef _ Ew _ _]; rewrite /level_bands Ef Ew. Qed.
Lemma same_bands ranks ng cols (l l' : seq (costs C n)) cl : the_same l l' -> all_bands x ranks ng cols l' cl = all_bands x ranks ng cols l cl.
Proof.
move=> H; elim: H cl => // c c' l1 l1' S _ IH [|cls cl] //=; by rewrite (same_level_bands _ _ _ _ S) IH.
Qed.
Lemma same_last c c' l l' : same_results c c' -> the_same l l' -> same_results (last c l) (last c' l').
Proof. by move=> S H; elim: H c c' S => //= d d' l1 l1' S' _ IH c c' _; apply: IH. Qed.
Lemma same_background (o o' : mrcosts C n) l l' : mr_levels o = Some l -> mr_levels o' = Some l' -> the_same l l' ->
  get_background x o' = get_background x o.
Proof.
rewrite /get_background => -> ->; case=> // c c' l1 l1' S H.
have [Ef Eb Ew _ _] : same_results (last c (c :: l1)) (last c' (c' :: l1')) := same_last S H.
by rewrite /scale_reconstruction Ef Eb Ew.
Qed.

(** The restored object gives the same global bands and the same reconstruction as the one that was saved. *)
Theorem C46_multires lev fs names r kw (o : mrcosts C n) k tr o1 res :
  (forall l, In l lev -> own_keys (ob_kw l)) -> sorted BinInt.Z.leb (lens lev) -> uniq (lens lev) ->
  to_netcdf [::] lev = Ok fs -> perm_eq names (lens lev) -> from_netcdf fs names = Ok r ->
  mr_levels o = Some [seq ob_c l | l <- lev] -> mr_windows o = lens lev -> mr_ndec o = Some (size lev) -> mr_omega o = None ->
  mr_ranks o = [seq odflt (Model_Utils.RInt BinNums.Z0) (cc_rank (c_cfg (ob_c l))) | l <- lev] ->
  global_cluster_omega y o (Some k) (Some tr) = (o1, Ok res) ->
  exists o1', [/\ global_cluster_omega y (as_mr kw r) (Some k) (Some tr) = (o1', Ok res),
    global_scale_reconstruction x o1' = global_scale_reconstruction x o1, get_background x o1' = get_background x o1
    & mr_reconstruction x o1' = mr_reconstruction x o1].
Proof.
move=> K So U Hs Pn Hr El Ew En Eo Er; have [Rw F] := C46_in_order K So U Hs Pn Hr.
have [l [_ _ _ Rr]] := from_netcdfE Hr.
have S : the_same [seq ob_c l | l <- lev] [seq ob_c l | l <- re_levels r].
  by elim: F => [|a b l1 l2 [Sr _ _ _] _ IH] /=; constructor.
have Sz : size (re_levels r) = size lev by elim: F => //= a b l1 l2 _ _ ->.
have Rk : re_ranks r = mr_ranks o.
  by rewrite Rr Er; elim: F => //= a b l1 l2 [[_ _ _ -> _] _ _ _] _ ->.
rewrite /global_cluster_omega /mr_table Eo El /= (same_ds S) Rw Ew.
case: (all_ok _ _) => // ds; cbn [bind]; case: (interp _ ds) => // da.
rewrite /mr_cluster; case: (cluster_values _ _ _) => // r1 [<- <-].
eexists; split; first reflexivity.
all: have Eb : get_background x (mr_upd (as_mr kw r) (Some da) (Some k) (Some r1)) = get_background x (mr_upd o (Some da) (Some k) (Some r1))
  by apply: (same_background _ _ S).
all: have Eg : global_scale_reconstruction x (mr_upd (as_mr kw r) (Some da) (Some k) (Some r1)) =
    global_scale_reconstruction x (mr_upd o (Some da) (Some k) (Some r1))
  by rewrite /global_scale_reconstruction /= En El /=; case: r1 {Eb} => cent cls;
     rewrite (same_ds S); case: (all_ok _ _) => // ls; cbn [bind]; case: (deterp _ _ _) => // cl; cbn [bind];
     rewrite Rk (same_bands _ _ _ _ S) Sz.
- exact: Eg.
- exact: Eb.
- by rewrite /mr_reconstruction Eg Eb /= En Sz.
Qed.
End Files.
(** two levels of the same length *)
Example C46_overwritten_case (C : numClosedFieldType) : exists fs r,
  [/\ to_netcdf [::] [:: tiny C [::]; tiny C tiny_kw] = Ok fs, ~~ uniq [seq level_length o | o <- [:: tiny C [::]; tiny C tiny_kw]]
    & from_netcdf fs [seq p.1 | p <- fs] = Ok r].
Proof. by do 2 eexists; split; [reflexivity| |reflexivity]. Qed.
Print Assumptions C46_levels.
Print Assumptions C46_in_order.
Print Assumptions C46_arguments.
Print Assumptions C46_readable.
Print Assumptions C46_overwritten_refuted.
Print Assumptions C46_multires.
