(** * The modes tuner: properties C27-C30

    Model: [Model_Tuner]; specification: [Spec_Tuner].  Numbers are exact, in
    any algebraically closed field with a norm (for instance the complex
    algebraic numbers [algC] of the examples). *)
From Coq Require Import List ZArith Lia.
From mathcomp Require Import all_ssreflect all_algebra all_field.
From Verif Require Import Py Model_Base Spec_Base Model_Tuner Spec_Tuner
  Proofs_Tuner Proofs_TunerHeap Proofs_TunerLink.

Set Implicit Arguments.
Unset Strict Implicit.
Unset Printing Implicit Defensive.
Import Order.Theory GRing.Theory Num.Theory.
Local Open Scope ring_scope.
Local Notation AC := algCnumClosedField.

(** ** C27 *)

(** When the active modes are the first [k] (in particular when all are
    active), exactly those rejected by the criterion are switched off, they are
    the ones reported, and nothing else changes. *)
Theorem C27_select :
  forall (C : numClosedFieldType) setlist nl (f : criterion C) (d : dmd C) c k m,
  enumerates setlist -> sane d -> answers f d c ->
  d_mask d = nseq k true ++ nseq m false -> size c = k ->
  exists d' cut,
    [/\ select_modes setlist nl f d = (d', Ok cut),
        same_but_mask d d',
        d_mask d' = c ++ nseq m false,
        (forall i, (i \in cut) = (i < k)%N && ~~ nth false c i) /\ uniq cut &
        forall kd, get kd d' = mask c (get kd d)].
Proof.
move=> C setlist nl f d c k m SL sd af e sc.
have [e1 pe sm _] := select_spec nl SL sd af.
exists (select_modes setlist nl f d).1, (setlist (cut_of d c)); split=> //.
- by rewrite -e1; case: (select_modes _ _ _ _).
- apply: (@eq_from_nth _ false).
    by rewrite (size_select_mask nl SL sd af) e !size_cat sc !size_nseq.
  move=> i _; rewrite (select_prefix nl SL i sd af e) nth_cat sc nth_nseq.
  by case: ltnP => //=; case: ifP.
- split; last by rewrite (perm_uniq pe) filter_uniq // iota_uniq.
  by move=> i; rewrite (perm_mem pe) mem_filter mem_iota /= add0n (prefix_active e) andbC.
- by move=> kd; apply: (select_shows nl SL kd sd af e sc).
Qed.
Print Assumptions C27_select.

(** Whatever the mask: which bits change.  A criterion's answer for the [i]-th
    active mode is applied to the [i]-th mode of all. *)
Theorem C27_select_any_mask :
  forall (C : numClosedFieldType) setlist nl (f : criterion C) (d : dmd C) c,
  enumerates setlist -> sane d -> answers f d c ->
  exists d' cut,
    [/\ select_modes setlist nl f d = (d', Ok cut), same_but_mask d d',
        size (d_mask d') = size (d_mask d) &
        forall i, nth false (d_mask d') i =
          nth false (d_mask d) i && ~~ ((i < size (eigs d))%N && ~~ nth false c i)].
Proof.
move=> C setlist nl f d c SL sd af; have [e1 _ sm _] := select_spec nl SL sd af.
exists (select_modes setlist nl f d).1, (setlist (cut_of d c)); split=> //.
- by rewrite -e1; case: (select_modes _ _ _ _).
- exact: (size_select_mask nl SL sd af).
- by move=> i; rewrite /eigs size_get //; apply: select_mask.
Qed.
Print Assumptions C27_select_any_mask.

Definition ex_mode (x y z : AC) : mode (entry AC) := mkMode (Col [:: x; 0]) (Val y) (Val z).
Definition ex_dmd (m : seq bool) : dmd AC :=
  mkDmd [:: ex_mode 1 2%:R 3%:R; ex_mode 1 1 1; ex_mode 2%:R 1 5%:R] m [:: 0; 1; 2%:Z] [:: 0; 1].

Example C27_example :
  sane (ex_dmd [:: true; true; false]) /\
  answers (fun d => (d, Ok [:: false; true])) (ex_dmd [:: true; true; false]) [:: false; true] /\
  d_mask (ex_dmd [:: true; true; false]) = nseq 2 true ++ nseq 1 false /\
  enumerates (fun l => rev l) /\
  select_modes (fun l => rev l) false (fun d => (d, Ok [:: false; true])) (ex_dmd [:: true; true; false])
  = (ex_dmd [:: false; true; false], Ok [:: 0%N]).
Proof. by do 4! split=> //; move=> l; rewrite perm_rev. Qed.

(** Composition fails: after one selection has removed the first mode, a second
    criterion that keeps the second and rejects the third mode keeps the third
    and reports a wrong position. *)
Theorem C27_composition_refuted :
  exists (d : dmd AC) (f : criterion AC) c,
  sane d /\ answers f d c /\ size c = size (eigs d) /\
  forall setlist, enumerates setlist ->
  let d' := (select_modes setlist false f d).1 in
  exists i j, [/\ (i < 3)%N, (j < size c)%N, i = true_pos (d_mask d) j /\ nth false (d_mask d) i = true,
     nth false c j = false & nth false (d_mask d') i = true].
Proof.
exists (ex_dmd [:: false; true; true]), (fun d => (d, Ok [:: true; false])), [:: true; false].
do 3! split=> //; move=> setlist SL d'; exists 2%N, 1%N; split=> //.
by rewrite (select_mask false SL (c := [:: true; false])).
Qed.
Print Assumptions C27_composition_refuted.

(** ... or removes a mode that the criterion wanted to keep *)
Theorem C27_composition_removes_refuted :
  exists (d : dmd AC) (f : criterion AC) c,
  sane d /\ answers f d c /\ size c = size (eigs d) /\
  forall setlist, enumerates setlist ->
  let d' := (select_modes setlist false f d).1 in
  exists i j, [/\ i = true_pos (d_mask d) j, nth false (d_mask d) i = true,
     nth false c j = true & nth false (d_mask d') i = false].
Proof.
exists (ex_dmd [:: false; true; true]), (fun d => (d, Ok [:: true; false])), [:: true; false].
do 3! split=> //; move=> setlist SL d'; exists 1%N, 0%N; split=> //.
by rewrite (select_mask false SL (c := [:: true; false])).
Qed.
Print Assumptions C27_composition_removes_refuted.

(** The documented [nullify_amplitudes=True] (zero the amplitudes, keep the
    number of modes) does nothing of the kind: modes are removed and the
    amplitudes stay. *)
Theorem C27_nullify_refuted :
  (forall (C : numClosedFieldType) setlist (f : criterion C) (d : dmd C),
     select_modes setlist true f d = select_modes setlist false f d) /\
  exists (d : dmd AC) (f : criterion AC), forall setlist, enumerates setlist ->
  let d' := (select_modes setlist true f d).1 in
  (size (modes d') < size (modes d))%N /\ d_full d' = d_full d /\ amplitudes d' = [:: Val 1; Val 5%:R].
Proof.
split=> //; exists (ex_dmd [:: true; true; true]), (fun d => (d, Ok [:: false; true; true])) => setlist SL.
have [||||d' [cut [-> [ef _ _] em _ sh]]] := C27_select true SL (d := ex_dmd [:: true; true; true])
  (f := fun d => (d, Ok [:: false; true; true])) (c := [:: false; true; true]) (k := 3) (m := 0) => //.
by rewrite /= /modes /amplitudes !sh /=.
Qed.
Print Assumptions C27_nullify_refuted.

(** A criterion that raises stops the selection; the mask is not touched. *)
Theorem C27_criterion_raises :
  forall (C : numClosedFieldType) setlist nl (f : criterion C) (d d1 : dmd C) x,
  f d = (d1, Err x) -> select_modes setlist nl f d = (d1, Err x).
Proof. by move=> C setlist nl f d d1 x e; rewrite /select_modes e. Qed.
Print Assumptions C27_criterion_raises.

(** select_modes(in_place=False): the given instance and every other one keep
    their content; the returned instance is new and is the tuned copy. *)
Theorem C27_not_in_place :
  forall (C : numClosedFieldType) setlist nl (f : criterion C) h r, (r < size h)%N ->
  let out := select_call setlist h r f false nl in
  let tuned := select_modes setlist nl f (obj h r) in
  [/\ forall q, (q < size h)%N -> obj out.1 q = obj h q,
      obj out.1 (size h) = tuned.1 &
      out.2 = (let! cut := tuned.2 in Ok (size h, cut))].
Proof.
move=> C setlist nl f h r rh; rewrite /select_call /=.
have -> : obj (deepcopy h r) (size h) = obj h r by rewrite /obj nth_rcons ltnn eqxx.
case: (select_modes _ _ _ _) => d x /=; split=> //.
  by move=> q qh; rewrite obj_set ltn_eqF // /obj nth_rcons qh.
by rewrite obj_set eqxx.
Qed.
Print Assumptions C27_not_in_place.

(** in place: that instance only *)
Theorem C27_in_place :
  forall (C : numClosedFieldType) setlist nl (f : criterion C) h r,
  let out := select_call setlist h r f true nl in
  let tuned := select_modes setlist nl f (obj h r) in
  (forall q, obj out.1 q = if q == r then tuned.1 else obj h q) /\
  out.2 = (let! cut := tuned.2 in Ok (r, cut)).
Proof.
move=> C setlist nl f h r; rewrite /select_call /=.
by case: (select_modes _ _ _ _) => d x /=; split=> // q; rewrite obj_set.
Qed.
Print Assumptions C27_in_place.

(** The reads and writes of the tuner are those of the specification of
    DMDBase (C01): reading an array, assigning the mask, writing an exposed
    array entry by entry. *)
Theorem C27_interface :
  forall (C : numClosedFieldType) (d : dmd C) gen env k m vs, sane d ->
  let v := mkView (d_full d) (d_mask d) gen env in
  [/\ snd (view_step v (Model_Base.Get 0 k)) = OArr (get k d),
      snd (view_step v (GetMask 0)) = OMask (d_mask d),
      (let w := fst (view_step v (SetMask 0 (mkMaskval true [:: size (d_full d)] m))) in
       v_full w = d_full (set_mask d m) /\ v_mask w = d_mask (set_mask d m)) &
      size vs = size (get k d) ->
      d_full (write k d vs) = edits k (d_mask d) (d_full d) (zip (iota 0 (size vs)) vs)].
Proof.
move=> C d gen env k m vs sd v; split=> //.
  rewrite /=; change (size (d_full d)) with (List.length (d_full d)).
  by case: (Nat.eq_dec _ _).
by move=> e; rewrite /= put_edits // e size_get.
Qed.
Print Assumptions C27_interface.

(** The same on the model of DMDBase itself: after any history of reads, edits,
    mask assignments and refits, the mask assignment made by select_modes is
    accepted, read back, and shows the corresponding entries. *)
Theorem C27_on_DMDBase :
  forall V n (ms es bs : list V) os cut k,
  List.length ms = List.length es -> List.length bs = List.length es ->
  List.Forall view_op os -> List.Forall op_ok os ->
  let a := fst (view_run (view_init ms es bs) os) in
  let m := v_mask a in
  let w := fst (Model_Base.run empty_world (Model_Base.New :: Fit 0 (FitOk n ms es bs) :: nil)) in
  snd (Model_Base.run w (os ++ GetMask 0 :: SetMask 0 (mkMaskval true (List.length m :: nil) (clear cut m))
                        :: GetMask 0 :: Model_Base.Get 0 k :: nil)) =
  (snd (view_run (view_init ms es bs) os) ++
   OMask m :: OUnit :: OMask (clear cut m) :: OArr (List.map (field k) (sel (clear cut m) (v_full a))) :: nil)%list.
Proof. exact: clear_on_base. Qed.
Print Assumptions C27_on_DMDBase.

Definition ex29 : dmd AC :=
  mkDmd [:: ex_mode 1 2%:R 3%:R; ex_mode 1 4%:R 1; ex_mode 2%:R 3%:R 5%:R] [:: true; false; true] [:: 0; 1] [:: 0; 1].

(** ** C28 *)

(** threshold: strictly between the two radii *)
Theorem C28_threshold :
  forall (C : numClosedFieldType) (lo up : ext C) (d : dmd C),
  exists c, answers (threshold lo up) d c /\ size c = size (eigs d) /\
  forall j z, (j < size (eigs d))%N -> nth NaN (eigs d) j = Val z ->
    (nth false c j <-> below lo `|z| /\ above up `|z|).
Proof.
move=> C lo up d; eexists; split; first by [].
split; first by rewrite size_map.
move=> j z jl ez; have [c [[<-] _ H]] := threshold_bit lo up jl ez; exact: H.
Qed.
Print Assumptions C28_threshold.

(** the documentation says inclusive on both sides *)
Theorem C28_threshold_inclusive_refuted :
  forall (C : numClosedFieldType) (d : dmd C) j z, (j < size (eigs d))%N -> nth NaN (eigs d) j = Val z ->
  forall up, exists c c',
    [/\ answers (threshold (Fin `|z|) up) d c, nth false c j = false,
        answers (threshold NInf (Fin `|z|)) d c' & nth false c' j = false].
Proof.
move=> C d j z jl ez up.
have [c [e1 _ H1]] := threshold_bit (Fin `|z|) up jl ez.
have [c' [e2 _ H2]] := threshold_bit NInf (Fin `|z|) jl ez.
exists c, c'; split=> //; apply/negbTE/negP.
  by move/H1 => -[]; rewrite /below ltxx.
by move/H2 => -[_]; rewrite /above ltxx.
Qed.
Print Assumptions C28_threshold_inclusive_refuted.

(** stable_modes: which combinations of arguments are accepted, for non-zero
    distances: the common one alone, or the separate ones alone, and at least
    one of them finite *)
Theorem C28_stable_modes_arguments :
  forall (C : numClosedFieldType) (both inside outside : option (ext C)),
  both <> Some (Fin 0) -> inside <> Some (Fin 0) -> outside <> Some (Fin 0) ->
  if stable_modes both inside outside is Err x
  then x = ValueError /\
    ~ ((bounded both /\ inside = None /\ outside = None) \/
       (both = None /\ (bounded inside \/ bounded outside)))
  else (bounded both /\ inside = None /\ outside = None) \/
       (both = None /\ (bounded inside \/ bounded outside)).
Proof.
move=> C both inside outside.
have bo y : bounded (Some (Fin y) : option (ext C)) by exists (Fin y).
have bn : bounded (Some NInf : option (ext C)) by exists NInf.
have nb : ~ bounded (Some PInf : option (ext C)) by case=> t [<-].
have nn : ~ bounded (None : option (ext C)) by case.
have z (y : C) : Some (Fin y) <> Some (Fin 0) -> (y != 0) by move=> h; apply/eqP => e; case: h; rewrite e.
case: both => [[y||]|]; case: inside => [[y'||]|]; case: outside => [[y''||]|] h1 h2 h3;
  rewrite /stable_modes /= ?(z _ h1) ?(z _ h2) ?(z _ h3) /=; try (by left); try (by right; split; auto);
  by split=> // -[[b1 [b2 b3]]|[b1 [b2|b2]]].
Qed.
Print Assumptions C28_stable_modes_arguments.

(** and which modes it keeps: those strictly within the distance, on each side *)
Theorem C28_stable_modes :
  forall (C : numClosedFieldType) (both inside outside : option (ext C)) f (d : dmd C),
  both <> Some (Fin 0) ->
  stable_modes both inside outside = Ok f ->
  positive (distance both inside) -> positive (distance both outside) ->
  exists c, answers f d c /\ size c = size (eigs d) /\
  forall j z, (j < size (eigs d))%N -> nth NaN (eigs d) j = Val z ->
    (nth false c j <-> within_inside (distance both inside) z /\ within_outside (distance both outside) z).
Proof.
move=> C both inside outside f d b0 ef pi po.
have tb : truthy both = (if both is Some _ then true else false).
  by case: both b0 {ef pi po} => [[y||]|] //= h; apply/eqP => e; case: h; rewrite e.
have -> : f = stable_modes_ (distance both inside) (distance both outside).
  move: ef; rewrite /stable_modes /distance tb; case: (both) => [t|] /=.
    by case: ifP => // _; case: ifP => // _; case: ifP => // _ [].
  by case: ifP => // _ [].
have [c [e1 [e2 H]]] := C28_threshold (one_minus (distance both inside)) (one_plus (distance both outside)) d.
exists c; split=> //; split=> // j z jl ez.
apply: (iff_trans (H j z jl ez)).
case: (distance both inside) pi => [y||] //= y0; case: (distance both outside) po => [y'||] //= y0';
  rewrite ?inside_iff ?outside_iff //; by split=> -[].
Qed.
Print Assumptions C28_stable_modes.

(** a zero distance is read as an absent one: alone it is refused, next to
    another argument it is silently ignored *)
Theorem C28_zero_distance_refuted :
  forall (C : numClosedFieldType) (t : ext C), t <> PInf ->
  stable_modes (Some (Fin (0 : C))) None None = Err ValueError /\
  stable_modes (Some (Fin 0)) (Some t) None = stable_modes None (Some t) None /\
  (truthy (Some t) -> stable_modes (Some t) (Some (Fin 0)) (Some (Fin 0)) = stable_modes (Some t) None None).
Proof.
move=> C t tP; rewrite /stable_modes /= eqxx /=; split=> //; split=> //.
by move=> ->.
Qed.
Print Assumptions C28_zero_distance_refuted.

(** integral_contribution(n): [n] active modes (or all of them if fewer) are
    kept, none of the discarded ones has a larger integral over the original
    window, and the instance, its reconstruction window included, is as
    before. *)
Theorem C28_integral_contribution :
  forall (C : numClosedFieldType) argsort (n : nat) (d : dmd C), sane d -> (0 < n)%N ->
  let rs := sel (d_mask d) (d_full d) in
  let value j := integral d (nth (no_mode C) rs j) in
  let cs := [seq integral d r | r <- rs] in
  sorts cs (argsort cs) ->
  exists c, [/\ answers (integral_contribution argsort (Z.of_nat n)) d c,
    size c = size (eigs d), seq.count id c = minn n (size (eigs d)) &
    forall i j, (i < size c)%N -> (j < size c)%N -> nth false c i = true -> nth false c j = false ->
      value j <= value i].
Proof.
move=> C argsort n d sd n0 rs value cs so.
have szr : size rs = active d by rewrite size_sel.
exists (foldl (fun m i => upd m i true) (nseq (active d) false) (last_n (Z.of_nat n) (argsort (values d)))).
split; first exact: integralE.
- by rewrite size_foldl_upd size_nseq /eigs size_get.
- rewrite integral_count // integral_size // /eigs size_get //.
  by rewrite Nat2Z.id; case: (Z.leb_spec (Z.of_nat n) Z0) => // h; move/ssrnat.ltP: n0; lia.
- move=> i j; rewrite size_foldl_upd size_nseq => il jl; rewrite !integral_bits // => hi hj.
  have := integral_order sd so jl hi (negbT hj).
  by rewrite /values !(nth_map (no_mode C)) ?szr.
Qed.
Print Assumptions C28_integral_contribution.

(** n = 0 keeps everything; a negative n discards the |n| smallest *)
Theorem C28_integral_zero_refuted :
  forall (C : numClosedFieldType) argsort (d : dmd C), sane d ->
  let cs := [seq integral d r | r <- sel (d_mask d) (d_full d)] in
  sorts cs (argsort cs) ->
  answers (integral_contribution argsort Z0) d (nseq (size (eigs d)) true) /\
  forall n : nat, exists c, answers (integral_contribution argsort (Z.opp (Z.of_nat n))) d c /\
    seq.count id c = (size (eigs d) - n)%N.
Proof.
move=> C argsort d sd cs so; rewrite /eigs size_get //.
have cnt z : seq.count id (foldl (fun m i => upd m i true) (nseq (active d) false) (last_n z (argsort (values d)))) =
  size (last_n z (argsort (values d))) by exact: integral_count.
split.
  rewrite /answers integralE //; congr (_, Ok _).
  have := cnt Z0; rewrite integral_size //= subn0 => h.
  have sz : size (foldl (fun m i => upd m i true) (nseq (active d) false) (last_n Z0 (argsort (values d)))) = active d.
    by rewrite size_foldl_upd size_nseq.
  move: h sz; move: (foldl _ _ _) => c h sz.
  have /all_pred1P -> : all (pred1 true) c; last by rewrite sz.
  have: all id c by rewrite all_count h sz.
  by apply: sub_all => b /= ->.
move=> n; eexists; split; first exact: integralE.
rewrite cnt integral_size // Z.opp_involutive Nat2Z.id.
by case: (Z.leb_spec (Z.opp (Z.of_nat n)) Z0) => // h; lia.
Qed.
Print Assumptions C28_integral_zero_refuted.

Example C28_example :
  [/\ sane ex29,
      (exists f, stable_modes (Some (Fin (1 : AC))) None None = Ok f) /\ positive (Fin (1 : AC)),
      (exists f, stable_modes None None (Some (Fin (2%:R : AC))) = Ok f) &
      sorts [seq integral ex29 r | r <- sel (d_mask ex29) (d_full ex29)] [:: 0; 1]%N].
Proof.
split=> //.
- by split; [rewrite /stable_modes /= oner_eq0 /=; eexists|rewrite /= ltr01].
- by eexists.
- rewrite /= /integral /sorts /=; split=> //.
  rewrite !big_cons !big_nil /lam /amp /= !normr0 expr0n /= !addr0 expr0z !expr1z !mul1r !normr_nat normr1.
  by rewrite -!natrM !normr_nat -!natrD -?natrX expr1n mul1r -?natrM ler_nat.
Qed.

(** ** C29 *)

(** Every active mode whose eigenvalue has modulus strictly between the radii
    is put on the unit circle, its amplitude multiplied by the former modulus;
    the other active modes, the inactive ones, the mask and the windows stay;
    the reported positions (among the active modes) are those changed. *)
Theorem C29_stabilize :
  forall (C : numClosedFieldType) (lo hi : ext C) (d : dmd C),
  sane d -> (forall r, List.In r (d_full d) -> numeric r) -> ~ below lo 0 ->
  let d' := (stabilize_modes lo hi d).1 in
  let mode_of e i := nth (no_mode C) (d_full e) i in
  [/\ size (d_full d') = size (d_full d) /\ d_mask d' = d_mask d,
      d_ot d' = d_ot d /\ d_dt d' = d_dt d,
      forall i, (i < size (d_full d))%N -> nth false (d_mask d) i -> in_sector lo hi (mode_of d i) ->
        stabilized (mode_of d i) (mode_of d' i),
      forall i, (i < size (d_full d))%N -> ~ (nth false (d_mask d) i /\ in_sector lo hi (mode_of d i)) ->
        mode_of d' i = mode_of d i &
      forall j, j \in (stabilize_modes lo hi d).2 <->
        (j < size (eigs d))%N /\ in_sector lo hi (nth (no_mode C) (sel (d_mask d) (d_full d)) j)].
Proof.
move=> C lo hi d sd nu lo0 d' mode_of.
have numi i : (i < size (d_full d))%N -> numeric (mode_of d i).
  by move=> il; apply: nu; rewrite /mode_of; elim: (d_full d) i il => [|r l IH] [|i] //= il; [left|right; apply: IH].
split.
- by rewrite /d' stabilize_spec //= size_map size_zip sd minnn.
- by rewrite /d' stabilize_spec.
- move=> i il mi ins; rewrite /mode_of /d' stabilize_nth // mi; apply: stab1_in => //; first exact: numi.
  apply/eqP => l0; case: lo0; case: ins; rewrite -/(mode_of d i) l0 normr0; by [].
- move=> i il nn; rewrite /mode_of /d' stabilize_nth //; case E: (nth false _ i) => //.
  by apply: stab1_out; [exact: numi|move=> ins; apply: nn].
- move=> j; rewrite stabilize_indices // /eigs size_get //.
  case: (ltnP j (active d)) => jl; last by split=> // -[].
  have js : (j < size (sel (d_mask d) (d_full d)))%N by rewrite size_sel.
  have nj : numeric (nth (no_mode C) (sel (d_mask d) (d_full d)) j).
    apply: nu; rewrite sel_mask; rewrite sel_mask in js.
    have : forall (m : seq bool) (l : seq (mode (entry C))) i, (i < size (mask m l))%N ->
      List.In (nth (no_mode C) (mask m l) i) l.
      elim=> [|[] m IH] [|r l] [|i] //= h; try (by left); right; exact: IH.
    by apply.
  rewrite (nth_map (no_mode C)) //=.
  by split=> [/(fixableP lo hi nj)|[_ /(fixableP lo hi nj)]].
Qed.
Print Assumptions C29_stabilize.

(** consequences for the dynamics of a stabilised mode: unit eigenvalue, the
    value one step after the anchor is kept, the modulus no longer changes *)
Theorem C29_dynamics :
  forall (C : numClosedFieldType) (r r' : mode (entry C)), lam r != 0 -> stabilized r r' ->
  [/\ `|lam r'| = 1, lam r' * amp r' = lam r * amp r &
      forall k : int, `|lam r' ^ k * amp r'| = `|lam r * amp r|].
Proof. exact: stabilized_unit. Qed.
Print Assumptions C29_dynamics.

(** a second application changes nothing *)
Theorem C29_idempotent :
  forall (C : numClosedFieldType) (lo hi : ext C) (d : dmd C),
  sane d -> (forall r, List.In r (d_full d) -> numeric r /\ lam r != 0) ->
  let d' := (stabilize_modes lo hi d).1 in (stabilize_modes lo hi d').1 = d'.
Proof.
move=> C lo hi d sd nu d'; rewrite stabilize_spec; last exact: stabilize_sane.
rewrite /d' stabilize_spec //=; congr (mkDmd _ _ _ _).
move: sd nu; rewrite /sane; move: (d_full d); elim: (d_mask d) => [|b m IH] [|r l] //= [e] nu.
rewrite IH //; last by move=> q ql; apply: nu; right.
by congr (_ :: _); case: b => //; have [h1 h2] := nu r (or_introl erefl); apply: stab1_idem.
Qed.
Print Assumptions C29_idempotent.

Example C29_example :
  [/\ sane ex29, forall r, List.In r (d_full ex29) -> numeric r /\ lam r != 0, ~ below (Fin (1 : AC)) 0,
      in_sector (Fin 1) PInf (nth (no_mode AC) (d_full ex29) 0) &
      exists z, nth NaN (eigs (stabilize_modes (Fin 1) PInf ex29).1) 0 = Val z /\ z = 1].
Proof.
have a2 : `|2%:R : AC| = 2%:R by rewrite normr_nat.
split=> //.
- move=> r /= [<-|[<-|[<-|//]]]; split; try (by do 2 eexists); by rewrite /lam /= pnatr_eq0.
- by rewrite /= ltr10.
- by split=> //=; rewrite /lam /= a2 ltr1n.
- rewrite stabilize_spec //= /stab1 /fixable /= a2 ltr1n /= pnatr_eq0 /=.
  by eexists; split; first reflexivity; rewrite divff // pnatr_eq0.
Qed.

(** the radii themselves are not in the sector (the documentation writes a
    closed one), and a zero eigenvalue inside a sector of negative inner radius
    becomes NaN *)
Theorem C29_boundary_refuted :
  forall (C : numClosedFieldType) (d : dmd C) i z b hi,
  sane d -> (i < size (d_full d))%N -> nth false (d_mask d) i ->
  m_lam (nth (no_mode C) (d_full d) i) = Val z -> m_amp (nth (no_mode C) (d_full d) i) = Val b ->
  nth (no_mode C) (d_full (stabilize_modes (Fin `|z|) hi d).1) i = nth (no_mode C) (d_full d) i /\
  (forall y : C, y < 0 -> z = 0 ->
     m_lam (nth (no_mode C) (d_full (stabilize_modes (Fin y) PInf d).1) i) = NaN).
Proof.
move=> C d i z b hi sd il mi ez eb; split.
  by rewrite stabilize_nth // mi /stab1 ez /fixable /= ltxx.
by move=> y y0 z0; rewrite stabilize_nth // mi /stab1 ez z0 /fixable /= normr0 y0 /= eqxx.
Qed.
Print Assumptions C29_boundary_refuted.

(** ** C30 *)

(** Whatever any number of tuners do, an instance that was never handed to an
    in-place tuner keeps its content: tuners work on deep copies, and so do the
    tuners made from them by subset. *)
Theorem C30_isolated :
  forall (C : numClosedFieldType) setlist argsort (h : seq (dmd C)) (cs : seq (cmd C)) r,
  (r < size h)%N -> all (not_given r) cs ->
  obj (heap (run setlist argsort (mkStore h [::]) cs)) r = obj h r.
Proof.
move=> C setlist argsort h cs r rh ng.
have : safe r (obj h r) (run setlist argsort (mkStore h [::]) cs).
  by apply: safe_run => //; split=> //= i; rewrite nth_nil.
by case.
Qed.
Print Assumptions C30_isolated.

(** Tuning copies gives the copies exactly the content that tuning in place
    gives the originals, for any sequence of operations. *)
Theorem C30_same_result :
  forall (C : numClosedFieldType) setlist argsort (h : seq (dmd C)) a (ts : seq (tune C)),
  (forall r, r \in refs_of a -> (r < size h)%N) -> uniq (refs_of a) ->
  let after ip := run setlist argsort (mkStore h [::]) (New C a ip :: [seq tune_cmd 0 t | t <- ts]) in
  let inplace := after true in let copied := after false in
  [/\ t_refs (nth no_tuner (tuners inplace) 0) = refs_of a,
      (forall r, r \in t_refs (nth no_tuner (tuners copied) 0) -> (size h <= r)%N),
      contents copied 0 = [seq obj (heap inplace) r | r <- refs_of a] &
      contents copied 0 = tune_all setlist argsort ts [seq obj h r | r <- refs_of a]].
Proof.
move=> C setlist argsort h a ts ok un after inplace copied.
have H ip := new_contents setlist argsort (s := mkStore h [::]) (a := a) ip ok un.
have R ip : tuners (after ip) = tuners (step setlist argsort (mkStore h [::]) (New C a ip)).1 /\
   contents (after ip) 0 = tune_all setlist argsort ts [seq obj h r | r <- refs_of a].
  have [h1 h2 _ _] := H ip.
  by have [e1 e2] := tune_run setlist argsort ts h2; rewrite -h1.
have [r1 c1] := R true; have [r2 c2] := R false.
have [_ _ _ t1] := H true; have [_ _ _ t2] := H false.
split=> //.
- by rewrite /inplace r1.
- by rewrite /copied r2.
- by rewrite c2 -c1 /contents r1 t1.
Qed.
Print Assumptions C30_same_result.

(** a selection by a criterion that answers on every instance tunes each of
    them once, and no other *)
Theorem C30_each_once :
  forall (C : numClosedFieldType) setlist argsort h is_list rs c f,
  uniq rs -> resolve argsort c = Ok f -> (forall d : dmd C, exists b, (f d).2 = Ok b) ->
  let out := tuner_select setlist argsort h (mkTuner is_list rs) c false in
  out.2 = Ok tt /\
  forall r, obj out.1 r = if r \in rs then (select_modes setlist false f (obj h r)).1 else obj h r.
Proof.
move=> C setlist argsort h is_list rs c f un ef H; rewrite /tuner_select ef /=.
set F := (fun d => _).
have FO d : exists u, (F d).2 = Ok u.
  by have [b e] := H d; exists tt; rewrite /F /drop_value /select_modes; case: (f d) e => d1 x /= ->.
have := for_each_pure F h un; rewrite pure_each_ok // => -[e1 e2]; split=> // r.
case: ifP => rin; last by rewrite for_each_out ?rin.
have := congr1 (fun l => nth (no_dmd C) l (index r rs)) e1.
by rewrite -map_comp !(nth_map 0%N) ?index_mem //= nth_index.
Qed.
Print Assumptions C30_each_once.

(** get, subset and copy: a single instance iff one was given; a subset works on
    the very same instances and needs a list; a copy is new *)
Theorem C30_get_subset_copy :
  forall (C : numClosedFieldType) (h : seq (dmd C)) a ip,
  (forall r, r \in refs_of a -> (r < size h)%N) ->
  let t := (new_tuner h a ip).2 in let h1 := (new_tuner h a ip).1 in
  [/\ match a, tuner_get t with One _, One _ | Many _, Many _ => True | _, _ => False end,
      (ip -> tuner_get t = a) /\
      refs_of (tuner_get t) = t_refs t,
      forall ix, if a is Many _ then
           match subset t ix with
           | Ok t' => {subset t_refs t' <= t_refs t} /\ size (t_refs t') = size ix
           | Err x => x = IndexError
           end
         else subset t ix = Err ValueError &
      let cp := tuner_copy h1 t in
      [/\ match a, cp.2 with One _, One _ | Many _, Many _ => True | _, _ => False end,
          [seq obj cp.1 r | r <- refs_of cp.2] = [seq obj h1 r | r <- t_refs t],
          (forall r, r \in refs_of cp.2 -> (size h1 <= r)%N) &
          forall r, (r < size h1)%N -> obj cp.1 r = obj h1 r]].
Proof.
move=> C h a ip ok t h1.
have okt r : r \in t_refs t -> (r < size h1)%N.
  rewrite /t /h1 /new_tuner; case: (ip) => /=; first exact: ok.
  by rewrite mem_iota size_deepcopies => /andP[_].
have sr : size (t_refs t) = size (refs_of a) by rewrite /t /new_tuner; case: (ip) => //=; rewrite size_iota.
have tl : t_list t = (if a is Many _ then true else false) by rewrite /t /new_tuner; case: (ip).
have one : ~~ t_list t -> exists r, t_refs t = [:: r].
  rewrite tl; case: (a) sr => //= r; case: (t_refs t) => [|q [|q' l]] //= _ _; by exists q.
split.
- by rewrite /tuner_get tl; case: (a).
- split.
    rewrite /tuner_get tl /t /new_tuner => ->; by case: (a).
  rewrite /tuner_get; case E: (t_list t) => //=.
  by have [|r ->] := one; rewrite ?E.
- move=> ix; rewrite /subset tl; case: (a) => //= rs.
  case E: (pick _ ix) => [l|x] /=.
    split; first exact: pick_mem E.
    elim: ix l E => [|z ix IH] l /=; first by case=> <-.
    case: (norm_index _ _) => // p; case E: (pick _ ix) => [l'|] //= [<-] /=.
    by rewrite (IH l').
  elim: ix E => //= z ix IH; case: (norm_index _ _) => [p|]; last by case.
  by move: IH; case: (pick _ ix).
- rewrite /tuner_copy; case E: (t_list t) => /=; split=> //=.
  + by case: (a) tl; rewrite E.
  + apply: (@eq_from_nth _ (no_dmd C)); first by rewrite !size_map size_iota.
    move=> k; rewrite size_map size_iota => kl.
    by rewrite (nth_map 0%N) ?size_iota // nth_iota // (nth_map 0%N) // deepcopies_new.
  + by move=> r; rewrite mem_iota => /andP[].
  + by move=> r rh; rewrite deepcopies_old.
  + by case: (a) tl; rewrite E.
  + have [|r ->] := one; first by rewrite E.
    by rewrite /= /obj nth_rcons ltnn eqxx.
  + by move=> r; rewrite inE => /eqP->.
  + by move=> r rh; rewrite /obj nth_rcons rh.
Qed.
Print Assumptions C30_get_subset_copy.

(** an unknown name, or something that is neither a name nor a function, raises
    ValueError; wrong keyword arguments raise TypeError; nothing changes *)
Theorem C30_bad_criterion :
  forall (C : numClosedFieldType) setlist argsort h t nl (c : crit_arg C) x,
  resolve argsort c = Err x ->
  tuner_select setlist argsort h t c nl = (h, Err x) /\
  (resolve argsort (@CUnknown C) = Err ValueError /\ resolve argsort (@CNotCallable C) = Err ValueError).
Proof. by move=> C setlist argsort h t nl c x e; rewrite /tuner_select e. Qed.
Print Assumptions C30_bad_criterion.

(** a selection is not atomic: when the criterion raises on the second instance
    the first one is already tuned *)
Theorem C30_not_atomic_refuted :
  exists (h : seq (dmd AC)) f, forall setlist argsort, enumerates setlist ->
  let out := tuner_select setlist argsort h (mkTuner true [:: 0; 1]%N) (CFun f) false in
  out.2 = Err ValueError /\ d_mask (obj out.1 0) <> d_mask (obj h 0).
Proof.
exists [:: ex_dmd [:: true; true; true]; no_dmd AC],
  (fun d => (d, if size (eigs d) == 3%N then Ok [:: false; true; true] else Err ValueError)) => setlist argsort SL.
have e : setlist [:: 0%N] = [:: 0%N] by apply: perm_small_eq (SL _).
by rewrite /= e.
Qed.
Print Assumptions C30_not_atomic_refuted.

Example C30_example :
  let h := [:: ex29; ex_dmd [:: true; true; true]] in
  let cs := [:: New AC (Many [:: 0; 1]%N) false; Stabilize 0 (Fin (0 : AC)) PInf; Subset AC 0 [:: Z0];
                Stabilize 1 NInf PInf; Copy AC 0] in
  all (not_given 0%N) cs /\ all (not_given 1%N) cs.
Proof. by []. Qed.

(** The same for stabilize_modes: not in place, a new instance is tuned and the others keep their content; in place, that
    instance only. *)
Theorem C27_stabilize_place :
  forall (C : numClosedFieldType) (h : seq (dmd C)) r lo hi, (r < size h)%N ->
  let tuned := stabilize_modes lo hi (obj h r) in
  (let out := stabilize_call h r lo hi false in
   [/\ forall q, (q < size h)%N -> obj out.1 q = obj h q, obj out.1 (size h) = tuned.1 & out.2 = (size h, tuned.2)]) /\
  (let out := stabilize_call h r lo hi true in
   (forall q, obj out.1 q = if q == r then tuned.1 else obj h q) /\ out.2 = (r, tuned.2)).
Proof.
move=> C h r lo hi rh; rewrite /stabilize_call; move: (@stabilize_modes C lo hi) => stab /=; split.
  have -> : obj (deepcopy h r) (size h) = obj h r by rewrite /obj nth_rcons ltnn eqxx.
  case: (stab _) => d x /=; split=> //.
    by move=> q qh; rewrite obj_set ltn_eqF // /obj nth_rcons qh.
  by rewrite obj_set eqxx.
by case: (stab _) => d x /=; split=> // q; rewrite obj_set.
Qed.
Print Assumptions C27_stabilize_place.
