(** * Proofs for the modes tuner: integral contribution, heap of instances *)
From Coq Require Import ZArith Lia.
From mathcomp Require Import all_ssreflect all_algebra.
From Verif Require Import Py Model_Base Spec_Base Model_Tuner Spec_Tuner Proofs_Tuner.

Set Implicit Arguments.
Unset Strict Implicit.
Unset Printing Implicit Defensive.
Import GRing.Theory Num.Theory.
Local Open Scope ring_scope.

Lemma drop_last_n (n : Z) (l : seq nat) :
  last_n n l = drop (if Z.leb n Z0 then minn (Z.to_nat (Z.opp n)) (size l)
                     else (size l - Z.to_nat n)%N) l.
Proof.
rewrite /last_n; congr (drop _ l); move: (size l) => L.
have -> : minn (Z.to_nat (Z.opp n)) L = Nat.min (Z.to_nat (Z.opp n)) L.
  by case: (leqP (Z.to_nat (Z.opp n)) L) => /leP H; [rewrite Nat.min_l|rewrite Nat.min_r]; lia.
rewrite -[(L - _)%N]/(Nat.sub L (Z.to_nat n)).
by case: (Z.ltb_spec (Z.opp n) Z0) => H; case: (Z.leb_spec n Z0) => H2; lia.
Qed.

Section Proofs.
Variable C : numClosedFieldType.
Implicit Types (d : dmd C) (h : seq (dmd C)).

(** ** integral_contribution *)
Section Integral.
Variables (argsort : seq C -> seq nat) (d : dmd C).

(** the values the code ranks *)
Definition values := [seq integral d r | r <- sel (d_mask d) (d_full d)].

Lemma contributionsE :
  let d1 := mkDmd (d_full d) (d_mask d) (d_ot d) (d_ot d) in
  [seq contribution p.1 p.2 | p <- zip (modes d1) (dynamics d1)] = values.
Proof.
rewrite /values /modes /dynamics /eigs /amplitudes /get /=.
by elim: (sel _ _) => //= r l ->; congr (_ :: _); rewrite /contribution /integral /= big_map.
Qed.

Lemma size_values : sane d -> size values = active d.
Proof. by move=> sd; rewrite size_map size_sel. Qed.

Lemma integralE n : sane d ->
  integral_contribution argsort n d =
  (d, Ok (foldl (fun m i => upd m i true) (nseq (active d) false) (last_n n (argsort values)))).
Proof.
move=> sd; rewrite /integral_contribution contributionsE; congr (_, Ok _); first by case: (d).
by rewrite /modes size_get.
Qed.

Hypothesis sd : sane d.
Hypothesis SO : sorts values (argsort values).

Lemma argsort_facts : [/\ uniq (argsort values), forall i, (i \in argsort values) = (i < active d)%N
  & size (argsort values) = active d].
Proof.
case: SO => pe _; split.
- by rewrite (perm_uniq pe) iota_uniq.
- by move=> i; rewrite (perm_mem pe) mem_iota /= add0n size_values.
- by rewrite (perm_size pe) size_iota size_values.
Qed.

Lemma integral_bits n j :
  nth false (foldl (fun m i => upd m i true) (nseq (active d) false) (last_n n (argsort values))) j =
  (j \in last_n n (argsort values)).
Proof.
have [_ mem _] := argsort_facts.
case: (ltnP j (active d)) => jl.
  by rewrite nth_foldl_upd ?size_nseq // nth_nseq jl; case: (j \in _).
rewrite nth_default ?size_foldl_upd ?size_nseq //.
by apply/esym/negbTE/negP => /mem_drop; rewrite mem ltnNge jl.
Qed.

Lemma integral_count n : seq.count id (foldl (fun m i => upd m i true) (nseq (active d) false)
    (last_n n (argsort values))) = size (last_n n (argsort values)).
Proof.
set c := foldl _ _ _; have [un mem _] := argsort_facts.
have sc : size c = active d by rewrite size_foldl_upd size_nseq.
rewrite -[in LHS](mkseq_nth false c) sc /mkseq count_map -size_filter.
apply: perm_size; apply: uniq_perm; first by rewrite filter_uniq ?iota_uniq.
  exact: drop_uniq.
move=> i; rewrite mem_filter /= integral_bits mem_iota /= add0n.
by case E: (i \in _) => //=; rewrite -mem; exact: mem_drop E.
Qed.

Lemma integral_order n i j : (j < active d)%N ->
  i \in last_n n (argsort values) -> j \notin last_n n (argsort values) ->
  nth 0 values j <= nth 0 values i.
Proof.
have [_ mem _] := argsort_facts; rewrite drop_last_n; set k := (if _ then _ else _).
move=> jl iin jout; case: SO => _.
rewrite -(cat_take_drop k (argsort values)) sorted_pairwise; last by move=> a b c; exact: Order.POrderTheory.le_trans.
rewrite pairwise_cat => /and3P[/allrelP al _ _]; apply: al => //.
by move: jl; rewrite -mem -{1}(cat_take_drop k (argsort values)) mem_cat (negbTE jout) orbF.
Qed.

Lemma integral_size n : size (last_n n (argsort values)) =
  (if Z.leb n Z0 then active d - Z.to_nat (Z.opp n) else minn (Z.to_nat n) (active d))%N.
Proof.
have [_ _ sz] := argsort_facts; rewrite drop_last_n size_drop sz.
case: ifP => _; last by rewrite -minnE minnC.
by case: leqP => // /ltnW; rewrite -subn_eq0 => /eqP ->; rewrite subnn.
Qed.
End Integral.

(** ** the heap *)
Variables (setlist : seq nat -> seq nat) (argsort : seq C -> seq nat).
Local Notation step := (step setlist argsort).
Local Notation run := (run setlist argsort).

Lemma obj_set h r d r' : obj (set_nth (no_dmd C) h r d) r' = if r' == r then d else obj h r'.
Proof. by rewrite /obj nth_set_nth. Qed.

Lemma for_each_out f h rs r : r \notin rs -> obj (for_each f h rs).1 r = obj h r.
Proof.
elim: rs h => //= q rs IH h; rewrite in_cons negb_or => /andP[rq rr].
case: (f _) => dd [u|e] /=; last by rewrite obj_set (negbTE rq).
by rewrite IH // obj_set (negbTE rq).
Qed.

Lemma for_each_size f h rs : (size h <= size (for_each f h rs).1)%N.
Proof.
elim: rs h => //= q rs IH h; case: (f _) => dd [u|e] /=.
  by apply: leq_trans (IH _); rewrite size_set_nth leq_maxr.
by rewrite size_set_nth leq_maxr.
Qed.

Lemma deepcopies_old h rs r : (r < size h)%N -> obj (foldl (@deepcopy C) h rs) r = obj h r.
Proof.
elim: rs h => //= q rs IH h rh; rewrite IH; last by rewrite size_rcons ltnW.
by rewrite /obj nth_rcons rh.
Qed.

Lemma size_deepcopies h rs : size (foldl (@deepcopy C) h rs) = (size h + size rs)%N.
Proof. by elim: rs h => [|q rs IH] h /=; rewrite ?addn0 // IH size_rcons addSnnS. Qed.

Lemma deepcopies_new h rs k : (forall r, r \in rs -> (r < size h)%N) -> (k < size rs)%N ->
  obj (foldl (@deepcopy C) h rs) (size h + k) = obj h (nth 0%N rs k).
Proof.
elim: rs h k => //= q rs IH h k ok; case: k => [_|k kl] /=.
  by rewrite addn0 deepcopies_old ?size_rcons // /obj nth_rcons ltnn eqxx.
rewrite addnS -addSn -(size_rcons h (obj h q)) IH //.
  by rewrite /obj nth_rcons; rewrite ok ?in_cons ?mem_nth ?orbT.
by move=> r rr; rewrite size_rcons ltnS ltnW // ok // in_cons rr orbT.
Qed.

(** the instance [r] cannot be reached by any tuner *)
Definition safe (r : nat) (D : dmd C) (s : store C) :=
  [/\ (r < size (heap s))%N, obj (heap s) r = D &
      forall i, r \notin t_refs (nth no_tuner (tuners s) i)].

Lemma nth_rcons_tuner (ts : seq tuner) t i r :
  (forall j, r \notin t_refs (nth no_tuner ts j)) -> r \notin t_refs t ->
  r \notin t_refs (nth no_tuner (rcons ts t) i).
Proof. by move=> H1 H2; rewrite nth_rcons; case: ifP => _; [|case: ifP => _]; rewrite ?H1. Qed.

Lemma pick_mem rs ix l : pick rs ix = Ok l -> {subset l <= rs}.
Proof.
elim: ix l => [|z ix IH] l /=; first by case=> <-.
rewrite /norm_index; case E1: (_ && _).
  case E: (pick rs ix) => [l'|e] //= [<-] q; rewrite in_cons => /orP[/eqP->|/(IH _ E) //].
  apply: mem_nth; move/andP: E1 => [/Z.leb_le h1 /Z.ltb_lt h2].
  by have /ltP : lt (Z.to_nat z) (size rs) by lia.
case E2: (_ && _) => //.
case E: (pick rs ix) => [l'|e] //= [<-] q; rewrite in_cons => /orP[/eqP->|/(IH _ E) //].
apply: mem_nth; move/andP: E2 => [/Z.leb_le h1 /Z.ltb_lt h2].
by have /ltP : lt (Z.to_nat (Z.add z (Z.of_nat (size rs)))) (size rs) by lia.
Qed.

Lemma safe_step r D s c : not_given r c -> safe r D s -> safe r D (step s c).1.
Proof.
move=> ng [rs od nt]; case: c ng => [a ip|i ix|i|i|i c nl|i lo hi] ng; rewrite /step.
- rewrite /new_tuner; case: ip ng => ng /=.
    by split=> //= i; apply: nth_rcons_tuner.
  split=> /=; first by rewrite size_deepcopies ltn_addr.
    by rewrite deepcopies_old.
  by move=> i; apply: nth_rcons_tuner => //=; rewrite mem_iota negb_and -ltnNge rs.
- rewrite /subset; case: (t_list _) => //=; case E: (pick _ _) => [l|e] //=.
  split=> //= j; apply: nth_rcons_tuner => //=.
  by apply/negP => /(pick_mem E); apply/negP.
- by [].
- rewrite /tuner_copy; case: (t_list _) => /=; split=> //=.
  + by rewrite size_deepcopies ltn_addr.
  + by rewrite deepcopies_old.
  + by rewrite size_rcons ltnW.
  + by rewrite /obj nth_rcons rs.
- rewrite /tuner_select; case: (resolve _ _) => [f|e] //=.
  set F := (fun d => _); case E: (for_each F (heap s) _) => [h x] /=.
  have e1 : h = (for_each F (heap s) (t_refs (nth no_tuner (tuners s) i))).1 by rewrite E.
  split=> //=; rewrite e1; first exact: leq_trans rs (for_each_size _ _ _).
  by rewrite for_each_out.
- rewrite /tuner_stabilize.
  set F := (fun d => _); case E: (for_each F (heap s) _) => [h x] /=.
  have e1 : h = (for_each F (heap s) (t_refs (nth no_tuner (tuners s) i))).1 by rewrite E.
  split=> //=; rewrite e1; first exact: leq_trans rs (for_each_size _ _ _).
  by rewrite for_each_out.
Qed.

Lemma safe_run r D s cs : all (not_given r) cs -> safe r D s -> safe r D (run s cs).
Proof.
elim: cs s => //= c cs IH s /andP[n1 n2] sf.
by apply: IH => //; apply: safe_step.
Qed.

(** ** the same work on contents *)
Fixpoint pure_each (f : dmd C -> dmd C * result unit) (ds : seq (dmd C)) : seq (dmd C) * result unit :=
  match ds with
  | [::] => ([::], Ok tt)
  | d :: t => let '(d', x) := f d in
              match x with
              | Ok _ => let '(t', y) := pure_each f t in (d' :: t', y)
              | Err e => (d' :: t, Err e)
              end
  end.

Lemma for_each_pure f h rs : uniq rs ->
  ([seq obj (for_each f h rs).1 r | r <- rs], (for_each f h rs).2) =
  pure_each f [seq obj h r | r <- rs].
Proof.
elim: rs h => //= r rs IH h /andP[rr un].
case: (f (obj h r)) => dd [u|e] /=.
  have em : [seq obj (set_nth (no_dmd C) h r dd) q | q <- rs] = [seq obj h q | q <- rs].
    by apply/eq_in_map => q qr; rewrite obj_set; case: eqP qr rr => // -> ->.
  have := IH (set_nth (no_dmd C) h r dd) un; rewrite em.
  case: (pure_each f _) => l y [<- <-]; congr (_ :: _, _).
  by rewrite for_each_out // obj_set eqxx.
congr (_ :: _, _); first by rewrite obj_set eqxx.
by apply/eq_in_map => q qr; rewrite obj_set; case: eqP qr rr => // -> ->.
Qed.

(** all successes: everyone is tuned once *)
Lemma pure_each_ok f ds : (forall d, exists u, (f d).2 = Ok u) -> pure_each f ds = ([seq (f d).1 | d <- ds], Ok tt).
Proof.
move=> H; elim: ds => //= d t ->; have [u] := H d; case: (f d) => a b /= ->; by [].
Qed.

(** the tuning operations, without the tuner *)
Inductive tune := TSel of crit_arg C & bool | TStab of ext C & ext C.
Definition tune_cmd (i : nat) (t : tune) : cmd C :=
  match t with TSel c nl => Select i c nl | TStab lo hi => Stabilize i lo hi end.
Definition tune_pure (t : tune) (ds : seq (dmd C)) : seq (dmd C) * result unit :=
  match t with
  | TSel c nl => match resolve argsort c with
                 | Err e => (ds, Err e)
                 | Ok f => pure_each (fun d => drop_value (select_modes setlist nl f d)) ds end
  | TStab lo hi => pure_each (fun d => ((stabilize_modes lo hi d).1, Ok tt)) ds
  end.

Definition contents (s : store C) (i : nat) := [seq obj (heap s) r | r <- t_refs (nth no_tuner (tuners s) i)].

Lemma tune_step s i t : uniq (t_refs (nth no_tuner (tuners s) i)) ->
  let s' := (step s (tune_cmd i t)).1 in
  [/\ tuners s' = tuners s, contents s' i = (tune_pure t (contents s i)).1 &
      (step s (tune_cmd i t)).2 = of_res (tune_pure t (contents s i)).2].
Proof.
move=> un; case: t => [c nl|lo hi] /=.
  rewrite /tuner_select; case: (resolve _ _) => [f|e] //=.
  rewrite /contents -for_each_pure //; set F := (fun d => _).
  by case E: (for_each F _ _) => [h x] /=.
rewrite /tuner_stabilize /contents -for_each_pure //; set F := (fun d => _).
by case E: (for_each F _ _) => [h x] /=.
Qed.

Definition tune_all (ts : seq tune) (ds : seq (dmd C)) := foldl (fun ds t => (tune_pure t ds).1) ds ts.

Lemma tune_run s i ts : uniq (t_refs (nth no_tuner (tuners s) i)) ->
  tuners (run s [seq tune_cmd i t | t <- ts]) = tuners s /\
  contents (run s [seq tune_cmd i t | t <- ts]) i = tune_all ts (contents s i).
Proof.
elim: ts s => //= t ts IH s un; have [e1 e2 _] := tune_step t un.
have := IH (step s (tune_cmd i t)).1; rewrite e1 => /(_ un) [-> ->].
by rewrite e2.
Qed.

Lemma new_contents s a ip : (forall r, r \in refs_of a -> (r < size (heap s))%N) -> uniq (refs_of a) ->
  let s' := (step s (New C a ip)).1 in let i := size (tuners s) in
  [/\ contents s' i = [seq obj (heap s) r | r <- refs_of a],
      uniq (t_refs (nth no_tuner (tuners s') i)),
      t_list (nth no_tuner (tuners s') i) = (if a is Many _ then true else false) &
      if ip then t_refs (nth no_tuner (tuners s') i) = refs_of a
      else forall r, r \in t_refs (nth no_tuner (tuners s') i) -> (size (heap s) <= r)%N].
Proof.
move=> ok un; rewrite /step /new_tuner; case: ip => /=; rewrite /contents /= nth_rcons ltnn eqxx /=; split=> //.
- apply: (@eq_from_nth _ (no_dmd C)); first by rewrite !size_map size_iota.
  move=> k; rewrite size_map size_iota => kl.
  by rewrite (nth_map 0%N) ?size_iota // nth_iota // (nth_map 0%N) // deepcopies_new.
- exact: iota_uniq.
- by move=> r; rewrite mem_iota => /andP[].
Qed.

End Proofs.
