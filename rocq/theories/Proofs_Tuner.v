(** * Proofs for the modes tuner *)
From Coq Require Import ZArith Lia.
From mathcomp Require Import all_ssreflect all_algebra.
From Verif Require Import Py Model_Base Spec_Base Model_Tuner Spec_Tuner.

Set Implicit Arguments.
Unset Strict Implicit.
Unset Printing Implicit Defensive.
Import GRing.Theory Num.Theory.
Local Open Scope ring_scope.

(** ** Lists *)
Lemma sel_mask A (m : seq bool) (l : seq A) : sel m l = mask m l.
Proof. by elim: m l => [|[] m IH] [|x l] //=; rewrite IH. Qed.

Lemma nth_upd (m : seq bool) i b j : nth false (upd m i b) j =
  if (j == i) && (i < size m)%N then b else nth false m j.
Proof.
elim: m i j => [|a m IH] [|i] [|j] //=; first by rewrite andbF.
by rewrite IH eqSS ltnS.
Qed.

Lemma size_upd (m : seq bool) i b : size (upd m i b) = size m.
Proof. by elim: m i => [|a m IH] [|i] //=; rewrite IH. Qed.

Lemma size_foldl_upd (m : seq bool) b l : size (foldl (fun m i => upd m i b) m l) = size m.
Proof. by elim: l m => [|i l IH] m //=; rewrite IH size_upd. Qed.

Lemma nth_foldl_upd (m : seq bool) b l j : (j < size m)%N ->
  nth false (foldl (fun m i => upd m i b) m l) j = if j \in l then b else nth false m j.
Proof.
elim: l m => [|i l IH] m jm //=; rewrite IH ?size_upd // nth_upd in_cons.
by case: (j \in l); rewrite ?orbT // orbF; case: eqP => //= <-; rewrite jm.
Qed.

Lemma nth_clear cut m j : nth false (clear cut m) j = nth false m j && (j \notin cut).
Proof.
case: (ltnP j (size m)) => jm; last by rewrite !nth_default // size_foldl_upd.
by rewrite /clear nth_foldl_upd //; case: (j \in cut); rewrite ?andbF ?andbT.
Qed.

Lemma mem_where c i : (i \in where_ c) = (i < size c)%N && nth false c i.
Proof. by rewrite mem_filter mem_iota /= add0n andbC. Qed.

Lemma size_sel A (m : seq bool) (l : seq A) : size m = size l -> size (sel m l) = seq.count id m.
Proof. by move=> e; rewrite sel_mask size_mask. Qed.

Section Proofs.
Variable C : numClosedFieldType.
Implicit Types (d : dmd C) (z : C) (x : ext C) (r : mode (entry C)).

Definition active d := seq.count id (d_mask d).

Lemma size_get k d : sane d -> size (get k d) = active d.
Proof. by move=> e; rewrite size_map size_sel. Qed.

(** ** select_modes *)
Section Select.
Variables (setlist : seq nat -> seq nat) (nl : bool).
Hypothesis SL : enumerates setlist.

Definition cut_of d (c : seq bool) := [seq i <- iota 0 (active d) | ~~ nth false c i].

Lemma cut_ofE d c : sane d ->
  [seq i <- iota 0 (size (eigs d)) | i \notin where_ c] = cut_of d c.
Proof.
move=> sd; rewrite /eigs size_get //; apply: eq_filter => i; rewrite mem_where.
by case: (ltnP i (size c)) => //= ic; rewrite nth_default.
Qed.

Lemma select_spec f d c : sane d -> answers f d c ->
  let cut := setlist (cut_of d c) in
  let r := select_modes setlist nl f d in
  [/\ r.2 = Ok cut, perm_eq cut (cut_of d c), same_but_mask d r.1 &
      d_mask r.1 = clear cut (d_mask d)].
Proof.
move=> sd af cut r; rewrite /r /select_modes af /= cut_ofE // -/cut.
split=> //; first exact: SL; first by case: ifP.
by case: ltnP => //=; rewrite leqn0 size_eq0 => /eqP ->.
Qed.

Lemma select_mask f d c i : sane d -> answers f d c ->
  nth false (d_mask (select_modes setlist nl f d).1) i =
  nth false (d_mask d) i && ~~ ((i < active d)%N && ~~ nth false c i).
Proof.
move=> sd af; case: (select_spec sd af) => _ pe _ ->.
by rewrite nth_clear (perm_mem pe) mem_filter mem_iota /= add0n andbC [in LHS]andbC [_ && (i < _)%N]andbC.
Qed.

Lemma prefix_active d k m : d_mask d = nseq k true ++ nseq m false -> active d = k.
Proof. by move=> e; rewrite /active e count_cat !count_nseq /= mul1n mul0n addn0. Qed.

Lemma select_prefix f d c k m i : sane d -> answers f d c -> d_mask d = nseq k true ++ nseq m false ->
  nth false (d_mask (select_modes setlist nl f d).1) i = (i < k)%N && nth false c i.
Proof.
move=> sd af e; rewrite (select_mask _ sd af) (prefix_active e) e nth_cat size_nseq !nth_nseq.
by case: (ltnP i k) => ik //=; [rewrite negbK | case: ifP].
Qed.

Lemma size_select_mask f d c : sane d -> answers f d c ->
  size (d_mask (select_modes setlist nl f d).1) = size (d_mask d).
Proof. by move=> sd af; case: (select_spec sd af) => _ _ _ ->; rewrite /clear size_foldl_upd. Qed.

Lemma select_sane f d c : sane d -> answers f d c -> sane (select_modes setlist nl f d).1.
Proof. by move=> sd af; rewrite /sane (size_select_mask sd af); case: (select_spec sd af) => _ _ [-> _ _] _. Qed.

(** what is shown afterwards *)
Lemma select_shows f d c k m kd : sane d -> answers f d c -> d_mask d = nseq k true ++ nseq m false ->
  size c = k -> get kd (select_modes setlist nl f d).1 = mask c (get kd d).
Proof.
move=> sd af e sc; have [_ _ [ef _ _] _] := select_spec sd af.
have em : d_mask (select_modes setlist nl f d).1 = c ++ nseq m false.
  apply: (@eq_from_nth _ false).
    by rewrite (size_select_mask sd af) e !size_cat sc !size_nseq.
  move=> i _; rewrite (select_prefix i sd af e) nth_cat sc nth_nseq.
  by case: ltnP => //=; case: ifP.
rewrite /get ef em e -!map_mask !sel_mask; congr (map _ _).
have mF (l : seq (mode (entry C))) j : mask (nseq j false) l = [::].
  by elim: j l => [|j IH] [|y l] //=.
have mT (l : seq (mode (entry C))) : mask (nseq (size l) true) l = l by elim: l => //= y l ->.
have: (k <= size (d_full d))%N by rewrite -sd e size_cat !size_nseq leq_addr.
move: (d_full d) => l kl; rewrite -(cat_take_drop k l).
have sk : size (take k l) = k by rewrite size_takel.
rewrite !mask_cat ?size_nseq ?sk ?sc // !mF !cats0; congr (mask c _).
by rewrite -{2}sk mT.
Qed.

End Select.

(** ** stabilize_modes *)

Lemma fixableP lo hi (r : mode (entry C)) : numeric r ->
  reflect (in_sector lo hi r) (fixable lo hi (m_lam r)).
Proof.
move=> nr; apply: (iffP andP); case: nr => z [b [e1 _]]; rewrite /in_sector /lam e1 /=;
  by case: lo => [y||]; case: hi => [y'||] //= -[].
Qed.

(** one mode, seen through the code *)
Definition stab1 lo hi (r : mode (entry C)) : mode (entry C) :=
  if fixable lo hi (m_lam r)
  then mkMode (m_phi r) (div_abs (m_lam r)) (mul_abs (m_amp r) (m_lam r)) else r.

Lemma size_put k m (l : seq (mode (entry C))) vs : size (put k m l vs) = size l.
Proof. by elim: m l vs => [|[] m IH] [|r l] [|v vs] //=; rewrite IH. Qed.

Lemma stabilize_spec lo hi d : sane d ->
  (stabilize_modes lo hi d).1 =
  mkDmd [seq if q.1 then stab1 lo hi q.2 else q.2 | q <- zip (d_mask d) (d_full d)]
        (d_mask d) (d_ot d) (d_dt d).
Proof.
rewrite /stabilize_modes /write /= /eigs /amplitudes /get /sane /=.
move=> sd; congr (mkDmd _ _ _ _).
move: (d_full d) sd; elim: (d_mask d) => [|[] m IH] [|r l] //= [e].
  by rewrite -(IH l e) /stab1; case: (fixable lo hi (m_lam r)); case: r.
by rewrite -(IH l e).
Qed.

Lemma stabilize_sane lo hi d : sane d -> sane (stabilize_modes lo hi d).1.
Proof. by move=> sd; rewrite stabilize_spec // /sane /= size_map size_zip sd minnn. Qed.

Definition no_mode : mode (entry C) := mkMode NaN NaN NaN.

Lemma stabilize_nth lo hi d i : sane d -> (i < size (d_full d))%N ->
  nth no_mode (d_full (stabilize_modes lo hi d).1) i =
  if nth false (d_mask d) i then stab1 lo hi (nth no_mode (d_full d) i) else nth no_mode (d_full d) i.
Proof.
move=> sd il; rewrite stabilize_spec //= (nth_map (false, no_mode)); last by rewrite size_zip sd minnn.
by rewrite nth_zip.
Qed.

Lemma stab1_numeric lo hi r : numeric r -> below lo 0 = False -> numeric (stab1 lo hi r).
Proof.
rewrite /stab1 => -[z [b [e1 e2]]] lo0; case: ifP => [fx|_]; last by exists z, b.
have z0 : z != 0.
  apply/eqP => z0; move: fx; rewrite /fixable e1 z0 /= normr0.
  by case: lo lo0 => //= [y|] h; [move/andP=> [h1 _]; rewrite -h|move=> _; rewrite -h].
by rewrite e1 e2 /= (negbTE z0); exists (z / `|z|), (b * `|z|).
Qed.

Lemma stab1_in lo hi r : numeric r -> in_sector lo hi r -> lam r != 0 -> stabilized r (stab1 lo hi r).
Proof.
move=> nr ins l0; rewrite /stab1; case: (fixableP lo hi nr) => // _.
case: nr => z [b [e1 e2]]; rewrite /stabilized /lam /amp /= e1 e2 /=.
by move: l0; rewrite /lam e1 /= => /negbTE ->.
Qed.

Lemma stab1_out lo hi r : numeric r -> ~ in_sector lo hi r -> stab1 lo hi r = r.
Proof. by move=> nr ins; rewrite /stab1; case: (fixableP lo hi nr). Qed.

Lemma stabilized_unit (r r' : mode (entry C)) : lam r != 0 -> stabilized r r' ->
  [/\ `|lam r'| = 1, lam r' * amp r' = lam r * amp r & forall k : int, `|lam r' ^ k * amp r'| = `|lam r * amp r|].
Proof.
move=> l0 [_ e1 e2]; rewrite {1 2 3}/lam {1 2}/amp e1 e2 /=.
have n0 : `|lam r| != 0 by rewrite normr_eq0.
have u : `|lam r / `|lam r| | = 1 by rewrite normrM normfV normr_id divff.
split=> //.
  by rewrite -[num (m_lam r)]/(lam r) -[num (m_amp r)]/(amp r) mulrACA mulVf // mulr1.
move=> k; rewrite {1}/lam e1 {1}/amp e2 /= normrM.
have -> : `|(lam r / `|lam r|) ^ k| = 1.
  by case: k => k; [rewrite -exprnP|rewrite NegzE -exprnN normfV]; rewrite normrX u expr1n ?invr1.
by rewrite mul1r !normrM normr_id mulrC.
Qed.

Lemma stab1_idem lo hi r : numeric r -> lam r != 0 -> stab1 lo hi (stab1 lo hi r) = stab1 lo hi r.
Proof.
case=> z [b [e1 e2]]; rewrite /lam e1 /= => z0; rewrite /stab1 e1.
case E: (fixable lo hi (Val z)); last by rewrite e1 E.
rewrite e2 /= (negbTE z0) /=.
have n0 : `|z| != 0 by rewrite normr_eq0.
have u : `|z / `|z| | = 1 by rewrite normrM normfV normr_id divff.
case: ifP => // _; have -> : (z / `|z| == 0) = false.
  by apply/negbTE; rewrite -normr_eq0 u oner_eq0.
by rewrite u mulr1 invr1 mulr1.
Qed.

Lemma stabilize_indices lo hi d j : sane d ->
  (j \in (stabilize_modes lo hi d).2) = (j < active d)%N && fixable lo hi (nth NaN (eigs d) j).
Proof.
move=> sd; rewrite /stabilize_modes /= mem_where size_map /eigs size_get //.
by case: ltnP => //= jl; rewrite (nth_map NaN) // size_get.
Qed.

(** ** selectors *)
Lemma threshold_bit lo up d j : (j < size (eigs d))%N -> forall z, nth NaN (eigs d) j = Val z ->
  exists c, [/\ (threshold lo up d) = (d, Ok c), size c = size (eigs d) &
    (nth false c j <-> below lo `|z| /\ above up `|z|)].
Proof.
move=> jl z ez; eexists; split; first reflexivity; first by rewrite size_map.
rewrite (nth_map NaN) // ez /=.
by split=> [/andP[]|[]]; case: lo => [y||]; case: up => [y'||] //= h1 h2; apply/andP.
Qed.

Lemma inside_iff (y z : C) : 0 < y -> (1 - y < `|z| <-> (`|z| < 1 -> 1 - `|z| < y)).
Proof.
move=> y0; rewrite ltr_subl_addr; split=> [h _|h]; first by rewrite ltr_subl_addr addrC.
case: (real_ltP (normr_real z) (@real1 C)) => [/h|h1]; first by rewrite ltr_subl_addr addrC.
by rewrite -[X in X < _]addr0; apply: ler_lt_add.
Qed.

Lemma outside_iff (y z : C) : 0 < y -> (`|z| < 1 + y <-> (1 < `|z| -> `|z| - 1 < y)).
Proof.
move=> y0; split=> [h _|h]; first by rewrite ltr_subl_addr addrC.
case: (real_ltP (@real1 C) (normr_real z)) => [/h|h1]; first by rewrite ltr_subl_addr addrC.
by rewrite -[X in X < _]addr0; apply: ler_lt_add.
Qed.

End Proofs.
