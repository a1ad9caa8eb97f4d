(** * C34: the layout of ParametricDMD; C35: its instances are kept in step *)
From Coq Require Import List Arith Bool Lia.
From Verif Require Import Py Model_Param Spec_Param Proofs_Param.
Import ListNotations.
Set Implicit Arguments.

Section P.
Variables (V : Type) (v0 : V) (W : Type) (E : env V W).
Implicit Types (s : pstate E) (X : arr3 V).

(** ** C34: rolling the axes *)
Theorem C34_roll (A : arr3 V) : array3 A ->
  is3 v0 (roll_shape v0 A) (n2 A) (n0 A) (n1 A) (fun t i j => at3 v0 A i j t) /\
  is3 v0 (back_roll_shape v0 A) (n1 A) (n2 A) (n0 A) (fun i j k => at3 v0 A k i j) /\
  roll_shape v0 (back_roll_shape v0 A) = A /\ back_roll_shape v0 (roll_shape v0 A) = A.
Proof.
  intro HA; repeat split; try (apply wf3_tab3); intros.
  - apply roll_at; assumption.
  - apply back_roll_at; assumption.
  - apply (ext3 v0); try reflexivity; [apply wf3_tab3|exact HA|]; simpl; intros.
    rewrite roll_at by assumption; apply back_roll_at; assumption.
  - apply (ext3 v0); try reflexivity; [apply wf3_tab3|exact HA|]; simpl; intros.
    rewrite back_roll_at by assumption; apply roll_at; assumption.
Qed.

(** ** C34: what fit gives to the POD and to the DMD instances *)
Lemma fit_each_ok ds l ds' d : fit_each E ds l = (ds', Ok tt) -> length ds = length l ->
  length ds' = length ds /\ forall p, p < length ds -> dmd_fit E (nth p ds d) (nth p l (A2 0 0 [])) = (nth p ds' d, Ok tt).
Proof.
  revert l ds'; induction ds as [|d0 ds IH]; intros [|A l] ds'; simpl; try discriminate.
  - intro H; injection H as <-; split; [reflexivity|intros; lia].
  - destruct (dmd_fit E d0 A) as [d1 [[]|e]] eqn:Hf; [|intro H; discriminate H].
    destruct (fit_each E ds l) as [r x] eqn:Hr; intros H L; injection H as <- ->.
    destruct (IH l r Hr) as (Lr & H); [lia|]; split; [simpl; lia|].
    intros [|p] Hp; [exact Hf|apply H; lia].
Qed.

Lemma p_fit_inv s X v s' : p_fit v0 s X v = (s', Ok tt) ->
  exists t M P C l,
    plen v = Ok (n0 X) /\ normalise v = Ok t /\ (p_part s = true -> length (p_dmds s) = n0 X) /\
    arrange v0 X = Ok M /\ pod_fit E M = Ok P /\ pod_reduce E P M = Ok C /\ split_cols v0 C (n0 X) = Ok l /\
    fit_dmds (if p_light s then with_pod (with_train (with_ntrain s (n0 X)) t) P
              else with_coef (with_pod (with_train (with_ntrain s (n0 X)) t) P) (stack3 l)) l = (s', Ok tt).
Proof.
  unfold p_fit.
  destruct (plen v) as [n|]; [|discriminate].
  destruct (Nat.eqb_spec (n0 X) n) as [<-|]; [|discriminate]; cbn [negb].
  change (p_part (with_ntrain s (n0 X))) with (p_part s); change (p_dmds (with_ntrain s (n0 X))) with (p_dmds s).
  destruct (p_part s && negb (n0 X =? length (p_dmds s))) eqn:Hp; [discriminate|].
  destruct (normalise v) as [t|]; [|discriminate].
  destruct (arrange v0 X) as [M|] eqn:HM; [|discriminate].
  destruct (pod_fit E M) as [P|] eqn:HP; [|discriminate].
  destruct (pod_reduce E P M) as [C|] eqn:HC; [|discriminate].
  destruct (split_cols v0 C (n0 X)) as [l|] eqn:Hl; [|discriminate].
  intro H; exists t, M, P, C, l; repeat split; try assumption.
  intro Hpt; rewrite Hpt in Hp; simpl in Hp; destruct (Nat.eqb_spec (n0 X) (length (p_dmds s))); [lia|discriminate].
Qed.

(** The POD sees snapshot t of parameter p in column p*n + t; its coefficients C are cut into one block of columns
    per parameter; a partitioned instance fits instance p with block p, a monolithic one fits its instance
    with the blocks on top of each other. *)
Theorem C34_fit s X v s' : p_fit v0 s X v = (s', Ok tt) ->
  let k := n0 X in let n := n2 X in
  exists M P C, is2 v0 M (n1 X) (k * n) (fun x c => at3 v0 X (c / n) x (c mod n)) /\
    pod_fit E M = Ok P /\ pod_reduce E P M = Ok C /\ p_pod s' = Some P /\ p_ntrain s' = Some k /\
    let r := r2 C in let w := c2 C / k in
    let block p j t := at2 v0 C j (p * w + t) in
    0 < k /\ k * w = c2 C /\
    (if p_part s
     then length (p_dmds s) = k /\ length (p_dmds s') = k /\
          forall d p, p < k -> exists A, is2 v0 A r w (block p) /\ dmd_fit E (nth p (p_dmds s) d) A = (nth p (p_dmds s') d, Ok tt)
     else exists d d' ds A, p_dmds s = d :: ds /\ p_dmds s' = d' :: ds /\
          is2 v0 A (k * r) w (fun i t => block (i / r) (i mod r) t) /\ dmd_fit E d A = (d', Ok tt)) /\
    (p_light s = false -> exists B, p_training_coeffs s' = Ok B /\ is3 v0 B k r w block).
Proof.
  intro H; destruct (p_fit_inv _ _ _ H) as (t & M & P & C & l & Hn & Ht & Hlen & HM & HP & HC & Hl & Hd); clear H.
  exists M, P, C.
  destruct (arrange_ok _ _ HM) as (m0 & wM & rM & cM & aM).
  destruct (split_cols_ok _ _ _ Hl) as (k0 & kw & Ll & Hb).
  set (k := n0 X) in *; set (w := c2 C / k) in *.
  assert (SS : same_shape (r2 C) w l).
  { apply same_shape_of; rewrite Ll; intros b Hbb; destruct (Hb b Hbb) as (? & ? & ? & _); auto. }
  assert (Hne : l <> []) by (intro; subst l; simpl in Ll; lia).
  destruct (vstack_ok v0 SS Hne) as (F & HF & wF & rF & cF & aF); rewrite Ll in rF, aF.
  set (s1 := if p_light s then _ else _) in Hd.
  assert (Hs1 : p_part s1 = p_part s /\ p_dmds s1 = p_dmds s /\ p_pod s1 = Some P /\ p_ntrain s1 = Some k /\ p_light s1 = p_light s /\
                (p_light s = false -> p_coef s1 = Some (stack3 l))).
  { unfold s1; destruct (p_light s) eqn:?; simpl; repeat split; auto; try discriminate. }
  destruct Hs1 as (Ep & Ed & Epod & En & Elight & Ecoef).
  assert (Hs' : p_pod s' = Some P /\ p_ntrain s' = Some k /\ p_light s' = p_light s /\ p_coef s' = p_coef s1).
  { unfold fit_dmds in Hd; destruct (p_part s1).
    - destruct (fit_each E (p_dmds s1) l) as [ds x]; injection Hd as <- _; simpl; auto.
    - rewrite HF in Hd; destruct (p_dmds s1) as [|d ds]; [discriminate|].
      destruct (dmd_fit E d F) as [d1 x]; injection Hd as <- _; simpl; auto. }
  destruct Hs' as (E1 & E2 & E3 & E4).
  split; [|split; [exact HP|split; [exact HC|split; [exact E1|split; [exact E2|]]]]].
  { split; [exact wM|split; [exact rM|split; [exact cM|]]]; intros x c Hx Hc.
    destruct (Nat.eq_dec (n2 X) 0) as [Z|Z]; [rewrite Z in Hc; lia|].
    rewrite <- aM; [f_equal; rewrite Nat.mul_comm; apply Nat.div_mod; exact Z| |exact Hx|apply Nat.mod_upper_bound; exact Z].
    apply Nat.div_lt_upper_bound; [exact Z|]; fold k; lia. }
  split; [exact k0|split; [exact kw|split]].
  - unfold fit_dmds in Hd; rewrite Ep, Ed in Hd; destruct (p_part s) eqn:Hp.
    + specialize (Hlen eq_refl).
      destruct (fit_each E (p_dmds s) l) as [ds x] eqn:Hf; injection Hd as <- ->; simpl.
      split; [exact Hlen|].
      assert (L : length (p_dmds s) = length l) by lia.
      split.
      { destruct (p_dmds s) as [|d0 ?] eqn:Hds; [simpl in Hlen; lia|].
        destruct (fit_each_ok _ _ d0 Hf L) as (Lr & _); rewrite Lr; exact Hlen. }
      intros d p Hpk; destruct (fit_each_ok _ _ d Hf L) as (_ & Hfit).
      exists (nth p l (A2 0 0 [])); split; [|apply Hfit; lia].
      destruct (Hb p Hpk) as (wb & rb & cb & ab); repeat split; assumption.
    + rewrite HF in Hd; destruct (p_dmds s) as [|d ds] eqn:Hds; [discriminate|].
      destruct (dmd_fit E d F) as [d1 x] eqn:Hf; injection Hd as <- ->; simpl.
      exists d, d1, ds, F; repeat split; try assumption.
      intros i j Hi Hj.
      destruct (Nat.eq_dec (r2 C) 0) as [Z|Z]; [rewrite Z in Hi; lia|].
      assert (Hq : i / r2 C < k) by (apply Nat.div_lt_upper_bound; [exact Z|lia]).
      assert (Hm : i mod r2 C < r2 C) by (apply Nat.mod_upper_bound; exact Z).
      rewrite (Nat.div_mod i (r2 C)) at 1 by exact Z; rewrite (Nat.mul_comm (r2 C)).
      rewrite aF by assumption; destruct (Hb _ Hq) as (_ & _ & _ & ab); apply ab; assumption.
  - intro Hlight; exists (stack3 l).
    unfold p_training_coeffs; rewrite E3, Hlight, E4, (Ecoef Hlight); split; [reflexivity|].
    destruct l as [|A l']; [congruence|].
    destruct (SS A) as (wA & rA & cA); [left; reflexivity|].
    assert (L : forall x, In x (map (@d2 V) (A :: l')) -> length x = r2 C * w).
    { intros x Hx; apply in_map_iff in Hx as (B & <- & HB); destruct (SS B HB) as (wB & rB & cB); rewrite wB, rB, cB; reflexivity. }
    unfold stack3; repeat split; cbn [n0 n1 n2 d3]; try assumption.
    + unfold array3; cbn [n0 n1 n2 d3]; rewrite (concat_length _ L), map_length, rA, cA; ring.
    + intros p j t' Hpk Hj Ht'; unfold at3; cbn [n0 n1 n2 d3]; rewrite rA, cA.
      replace ((p * r2 C + j) * w + t') with (p * (r2 C * w) + (j * w + t')) by ring.
      rewrite (concat_nth v0 _ L); [|rewrite map_length, Ll; exact Hpk|apply idx_lt; assumption].
      change (@nil V) with (d2 (A2 0 0 (@nil V))); rewrite map_nth.
      destruct (Hb p Hpk) as (_ & _ & cb & ab); rewrite <- ab by assumption.
      unfold at2; rewrite cb; reflexivity.
Qed.

(** ** C34: the forecast *)
Lemma predict_keep s s1 x : predict_coeffs s = (s1, x) ->
  p_part s1 = p_part s /\ p_light s1 = p_light s /\ p_ntrain s1 = p_ntrain s /\ p_train s1 = p_train s /\ p_par s1 = p_par s /\
  p_pod s1 = p_pod s /\ p_app s1 = p_app s /\ p_coef s1 = p_coef s.
Proof.
  unfold predict_coeffs, sync_times; destruct (p_part s) eqn:Hp; [|intro H; injection H as <- _; auto 10].
  destruct (p_dmds s) as [|d ds]; [intro H; injection H as <- _; auto 10|].
  destruct (dmd_time E d); [|intro H; injection H as <- _; auto 10].
  destruct ds as [|d1 ds]; [intro H; injection H as <- _; simpl; auto 10|].
  destruct (dmd_time E _); intro H; injection H as <- _; simpl; auto 10.
Qed.

Lemma all_ok_forall2 {A B} (f : A -> result B) l r r' : all_ok (map f l) = Ok r -> Forall2 (fun a b => f a = Ok b) l r' -> r = r'.
Proof.
  revert r r'; induction l as [|a l IH]; simpl; intros r r' H F; inversion F; subst; [injection H as <-; reflexivity|].
  rewrite H2 in H; simpl in H; destruct (all_ok (map f l)) as [q|]; [|discriminate]; simpl in H; injection H as <-.
  f_equal; apply IH; [reflexivity|assumption].
Qed.
Lemma forall2_all_ok {A B} (f : A -> result B) l r : Forall2 (fun a b => f a = Ok b) l r -> all_ok (map f l) = Ok r.
Proof. induction 1; simpl; [reflexivity|]; rewrite H; simpl; rewrite IHForall2; reflexivity. Qed.

Lemma array2_shape l r c : (forall A, In A l -> array2 A /\ r2 A = r /\ c2 A = c) -> same_shape (V:=V) r c l.
Proof. intro H; exact H. Qed.

Theorem C34_forecast s s1 B : p_forecasted s = (s1, Ok B) ->
  exists k, p_ntrain s = Some k /\ n0 B = k /\ 0 < k /\
  if p_part s
  then forall recs r c, Forall2 (fun d A => dmd_rec E d = Ok A) (p_dmds s1) recs -> length recs = k ->
         (forall A, In A recs -> array2 A /\ r2 A = r /\ c2 A = c) ->
         is3 v0 B k r c (fun p j t => at2 v0 (nth p recs (A2 0 0 [])) j t)
  else exists d ds A, p_dmds s1 = d :: ds /\ dmd_rec E d = Ok A /\
         forall r, array2 A -> r2 A = k * r -> is3 v0 B k r (c2 A) (fun p j t => at2 v0 A (p * r + j) t).
Proof.
  unfold p_forecasted; destruct (predict_coeffs s) as [s2 x] eqn:Hp.
  destruct (predict_keep s Hp) as (Kp & _ & Kn & _); rewrite Kn.
  destruct x as [F|]; simpl; [|intro H; discriminate].
  destruct (p_ntrain s) as [k|] eqn:Hk; [|intro H; discriminate].
  intro H; injection H as <- HB; destruct (split_rows_inv _ _ HB) as (B0 & B2 & k0 & c0 & Bd).
  exists k; split; [reflexivity|split; [exact B0|split; [exact k0|]]].
  unfold predict_coeffs in Hp; destruct (p_part s) eqn:Hpt.
  - intros recs r c HR L Sh; destruct (sync_times s) as [s3 [u|]]; [|discriminate].
    injection Hp as <- HF; destruct (all_ok (map (dmd_rec E) (p_dmds s3))) as [l|] eqn:Hl; [|discriminate]; simpl in HF.
    rewrite (all_ok_forall2 (dmd_rec E) Hl HR) in HF.
    assert (Hne : recs <> []) by (intro; subst recs; simpl in L; lia).
    destruct (vstack_ok v0 (array2_shape recs Sh) Hne) as (F' & HF' & wF & rF & cF & aF).
    rewrite HF in HF'; injection HF' as <-; rewrite L in rF, aF.
    destruct (@split_rows_ok V v0 F k r wF rF k0 c0) as (B' & HB' & wB & b0 & b1 & b2 & ab).
    rewrite HB in HB'; injection HB' as <-.
    split; [exact wB|split; [exact b0|split; [exact b1|split; [congruence|]]]].
    intros p j t Hpk Hj Ht; rewrite ab by exact Hj; apply aF; assumption.
  - injection Hp as -> HF; destruct (p_dmds s2) as [|d ds]; [discriminate|].
    exists d, ds, F; split; [reflexivity|split; [exact HF|]].
    intros r wF rF; destruct (@split_rows_ok V v0 F k r wF rF k0 c0) as (B' & HB' & wB & b0 & b1 & b2 & ab).
    rewrite HB in HB'; injection HB' as <-.
    split; [exact wB|split; [exact b0|split; [exact b1|split; [congruence|]]]].
    intros p j t Hpk Hj Ht; apply ab; exact Hj.
Qed.

(** ** C34: one interpolation per time instant *)
Lemma interp_slices_inv tr par l a a' Rs : interp_slices E a tr par l = (a', Ok Rs) ->
  length Rs = length l /\
  forall t d e, t < length l -> exists b b', app_fit E b tr (nth t l d) = Ok b' /\ app_predict E b' par = Ok (nth t Rs e).
Proof.
  revert a a' Rs; induction l as [|M l IH]; intros a a' Rs; simpl.
  - intro H; injection H as _ <-; split; [reflexivity|intros; lia].
  - destruct (app_fit E a tr M) as [a1|] eqn:Hf; [|discriminate].
    destruct (app_predict E a1 par) as [R|] eqn:Hr; [|discriminate].
    destruct (interp_slices E a1 tr par l) as [a2 [Q|]] eqn:Hi; intro H; [|discriminate]; injection H as <- <-.
    destruct (IH _ _ _ Hi) as (L & H); split; [simpl; lia|].
    intros [|t] d e Ht; [exists a, a1; auto|simpl in Ht; apply H; lia].
Qed.

Lemma forecast_predict s s1 F k : predict_coeffs s = (s1, Ok F) -> p_ntrain s = Some k ->
  p_forecasted s = (s1, split_rows F k).
Proof. intros H Hk; unfold p_forecasted; rewrite H; destruct (predict_keep s H) as (_ & _ & -> & _); simpl; rewrite Hk; reflexivity. Qed.

Theorem C34_interpolated s s1 J : p_interpolated v0 s = (s1, Ok J) ->
  exists s0 B tr par, p_forecasted s = (s0, Ok B) /\ p_train s = Some tr /\ p_par s = Some par /\
    array3 J /\ n2 J = n2 B /\
    forall t, t < n2 B -> exists a a' M R, is2 v0 M (n0 B) (n1 B) (fun p j => at3 v0 B p j t) /\
      app_fit E a tr M = Ok a' /\ app_predict E a' par = Ok R /\ r2 R = n0 J /\ c2 R = n1 J /\
      forall q j, q < n0 J -> j < n1 J -> at3 v0 J q j t = at2 v0 R q j.
Proof.
  unfold p_interpolated; destruct (predict_coeffs s) as [s0 [F|]] eqn:Hp; [|discriminate].
  destruct (predict_keep s Hp) as (_ & _ & Kn & Kt & Kpar & _).
  unfold interpolate; rewrite Kn, Kt, Kpar.
  destruct (p_par s) as [par|]; [|discriminate].
  destruct (slen par) as [[|]|]; [discriminate| |discriminate].
  destruct (p_ntrain s) as [k|] eqn:Hk; [|discriminate].
  destruct (p_train s) as [tr|]; [|discriminate].
  destruct (split_rows F k) as [B|] eqn:HB; [|discriminate].
  destruct (interp_slices E (p_app s0) tr par (slices0 (roll_shape v0 B))) as [a [Rs|]] eqn:Hi; intro H; [|discriminate].
  injection H as <- HJ.
  exists s0, B, tr, par.
  split; [rewrite (forecast_predict _ Hp Hk), HB; reflexivity|split; [reflexivity|split; [reflexivity|]]].
  rewrite slices_roll in Hi; destruct (interp_slices_inv _ _ _ _ Hi) as (L & H).
  rewrite map_length, seq_length in L, H.
  destruct (dstack_ok _ _ HJ) as (_ & wJ & J2 & aJ); rewrite L in *.
  split; [exact wJ|split; [exact J2|]]; intros t Ht.
  destruct (H _ (A2 0 0 []) (A2 0 0 []) Ht) as (b & b' & H1 & H2); rewrite nth_map_seq in H1 by exact Ht.
  destruct (aJ t Ht) as (rR & cR & aR).
  exists b, b', (tab2 (n0 B) (n1 B) (fun i j => at3 v0 B i j t)), (nth t Rs (A2 0 0 [])).
  split; [|auto 10].
  split; [apply (wf2_tab2 (V:=V))|split; [reflexivity|split; [reflexivity|]]]; intros; rewrite at2_tab2 by assumption; reflexivity.
Qed.

Theorem C34_reconstructed s s1 R : p_reconstructed v0 s = (s1, Ok R) ->
  exists J P, p_interpolated v0 s = (s1, Ok J) /\ p_pod s = Some P /\ array3 R /\ n0 R = n0 J /\ n2 R = n2 J /\
    forall q t, q < n0 J -> t < n2 J -> exists v,
      pod_expand E P (map (fun j => at3 v0 J q j t) (seq 0 (n1 J))) = Ok v /\ length v = n1 R /\
      forall x, x < n1 R -> at3 v0 R q x t = nth x v v0.
Proof.
  unfold p_reconstructed; destruct (p_interpolated v0 s) as [s2 [J|]] eqn:Hi; [|discriminate].
  intro H; injection H as <- HR.
  assert (Kpod : p_pod s2 = p_pod s).
  { unfold p_interpolated, interpolate in Hi; destruct (predict_coeffs s) as [s0 [F|]] eqn:Hp; [|discriminate].
    destruct (predict_keep s Hp) as (_ & _ & _ & _ & _ & Kp & _); rewrite <- Kp.
    destruct (p_par s0) as [par|]; [|discriminate]; destruct (slen par) as [[|]|]; try discriminate.
    destruct (p_ntrain s0), (p_train s0); try discriminate; destruct (split_rows _ _); [|discriminate].
    destruct (interp_slices _ _ _ _ _) as [a1 x]; injection Hi as <- _; reflexivity. }
  rewrite Kpod in HR; destruct (p_pod s) as [P|]; [|discriminate].
  destruct (apply_axis1_ok _ _ _ HR) as (wR & R0 & R2 & H).
  exists J, P; repeat split; assumption.
Qed.

(** ** C34: exact components give exact reconstructions at the training parameters *)
Lemma interp_total tr par l k r a : interpolates v0 E k r tr par ->
  (forall M, In M l -> array2 M /\ r2 M = k /\ c2 M = r) ->
  exists a' Rs, interp_slices E a (S2 tr) (S2 par) l = (a', Ok Rs) /\ length Rs = length l /\
    forall t d e, t < length l -> r2 (nth t Rs e) = length par /\ c2 (nth t Rs e) = r /\
      forall q p, q < length par -> p < k -> nth_error par q = nth_error tr p ->
      forall j, j < r -> at2 v0 (nth t Rs e) q j = at2 v0 (nth t l d) p j.
Proof.
  intro Hint; revert a; induction l as [|M l IH]; intros a Hl; simpl.
  - exists a, []; repeat split; intros; lia.
  - destruct (Hl M) as (wM & rM & cM); [left; reflexivity|].
    destruct (Hint a M wM rM cM) as (a1 & R & -> & -> & rR & cR & aR).
    destruct (IH a1) as (a2 & Rs & -> & L & H); [intros; apply Hl; right; assumption|].
    exists a2, (R :: Rs); split; [reflexivity|split; [simpl; lia|]].
    intros [|t] d e Ht; [auto|apply H; simpl in Ht; lia].
Qed.

Lemma sync_time_law s t d0 ds : time_law E -> p_dmds s = d0 :: ds -> dmd_time E d0 = Ok t ->
  sync_times s = (with_dmds s (map (fun d => dmd_set_time E d t) (p_dmds s)), Ok tt).
Proof.
  intros HL Hd Ht; unfold sync_times; rewrite Hd, Ht, (HL d0 t); destruct ds; reflexivity.
Qed.

Theorem C34_exact s0 X v s tr par t : p_fit v0 s0 X v = (s, Ok tt) -> 0 < n2 X ->
  (* the training parameters and the queries *)
  p_train s = Some (S2 tr) -> par <> [] ->
  (* the POD is exact on the training snapshots *)
  (forall P M C, p_pod s = Some P -> is2 v0 M (n1 X) (n0 X * n2 X) (fun x c => at3 v0 X (c / n2 X) x (c mod n2 X)) ->
     pod_fit E M = Ok P -> pod_reduce E P M = Ok C ->
     c2 C = c2 M /\ exact_pod v0 E P C M /\
     interpolates v0 E (n0 X) (r2 C) tr par /\
     (* the DMD instances reproduce what they were fitted with *)
     if p_part s0
     then time_law E /\ p_get_time s = Ok t /\
          reproduce E (p_dmds s) (map (fun p => tab2 (r2 C) (n2 X) (fun j i => at2 v0 C j (p * n2 X + i))) (seq 0 (n0 X))) t
     else exists d ds, p_dmds s = d :: ds /\ dmd_rec E d = Ok
            (tab2 (n0 X * r2 C) (n2 X) (fun i c => at2 v0 C (i mod r2 C) ((i / r2 C) * n2 X + c)))) ->
  exists s1 R, p_reconstructed v0 (with_par s (S2 par)) = (s1, Ok R) /\
    n0 R = length par /\ n1 R = n1 X /\ n2 R = n2 X /\
    forall q p, q < length par -> p < n0 X -> nth_error par q = nth_error tr p ->
    forall x i, x < n1 X -> i < n2 X -> at3 v0 R q x i = at3 v0 X p x i.
Proof.
  intros Hfit n0X Htr Hpar Hyp.
  destruct (C34_fit _ _ _ Hfit) as (M & P & C & (wM & rM & cM & aM) & HP & HC & Epod & En & k0 & kw & _).
  assert (Epart : p_part s = p_part s0).
  { destruct (p_fit_inv _ _ _ Hfit) as (t1 & M1 & P1 & C1 & l1 & _ & _ & _ & _ & _ & _ & _ & Hd).
    unfold fit_dmds in Hd; destruct (p_light s0); simpl in Hd.
    all: destruct (p_part s0) eqn:Hpt.
    all: try (destruct (fit_each _ _ _); injection Hd as <- _; exact Hpt).
    all: destruct (vstack l1); [|discriminate]; destruct (p_dmds s0); [discriminate|].
    all: destruct (dmd_fit _ _ _); injection Hd as <- _; exact Hpt. }
  destruct (Hyp P M C Epod (conj wM (conj rM (conj cM aM))) HP HC) as (cC & (Pex & Psz) & Hint & Hd); clear Hyp.
  set (k := n0 X) in *; set (n := n2 X) in *; set (r := r2 C) in *.
  set (s2 := with_par s (S2 par)).
  (* the forecast *)
  set (bl := map (fun p => tab2 r n (fun j i => at2 v0 C j (p * n + i))) (seq 0 k)) in Hd.
  assert (HB : exists s3 F B, predict_coeffs s2 = (s3, Ok F) /\ split_rows F k = Ok B /\
             is3 v0 B k r n (fun p j i => at2 v0 C j (p * n + i))).
  { destruct (p_part s0) eqn:Hpt.
    - destruct Hd as (HL & Ht & Hrep).
      destruct (p_dmds s) as [|d0 ds] eqn:Hds; [unfold p_get_time in Ht; rewrite Hds in Ht; discriminate|].
      assert (Ht' : dmd_time E d0 = Ok t) by (unfold p_get_time in Ht; rewrite Hds in Ht; exact Ht).
      assert (Hs2 : p_dmds s2 = d0 :: ds) by exact Hds.
      assert (SS : same_shape r n bl).
      { intros A HA; apply in_map_iff in HA as (p & <- & _); repeat split; apply wf2_tab2. }
      assert (Lb : length bl = k) by (unfold bl; rewrite map_length, seq_length; reflexivity).
      assert (Hne : bl <> []) by (intro Z; rewrite Z in Lb; simpl in Lb; lia).
      destruct (vstack_ok v0 SS Hne) as (F & HF & wF & rF & cF & aF); rewrite Lb in rF, aF.
      destruct (@split_rows_ok V v0 F k r wF rF k0) as (B & HB & wB & b0 & b1 & b2 & ab); [rewrite cF; exact n0X|].
      exists (with_dmds s2 (map (fun d => dmd_set_time E d t) (p_dmds s2))), F, B; repeat split; try assumption.
      + unfold predict_coeffs; replace (p_part s2) with true by (symmetry; exact Epart).
        rewrite (sync_time_law s2 HL Hs2 Ht'); cbn [p_dmds with_dmds].
        replace (all_ok _) with (Ok bl); [simpl; rewrite HF; reflexivity|symmetry].
        rewrite Hs2; apply forall2_all_ok; clear - Hrep; induction Hrep; simpl; constructor; assumption.
      + congruence.
      + intros p j i Hp Hj Hi; rewrite ab, aF by assumption.
        unfold bl; rewrite nth_map_seq by exact Hp; rewrite at2_tab2 by assumption; reflexivity.
    - destruct Hd as (d & ds & Hds & Hrec).
      set (F := tab2 (k * r) n (fun i c => at2 v0 C (i mod r) (i / r * n + c))) in Hrec.
      destruct (@split_rows_ok V v0 F k r) as (B & HB & wB & b0 & b1 & b2 & ab); [apply wf2_tab2|reflexivity|exact k0|exact n0X|].
      exists s2, F, B; repeat split; try assumption.
      + unfold predict_coeffs; replace (p_part s2) with false by (symmetry; exact Epart).
        replace (p_dmds s2) with (d :: ds) by (symmetry; exact Hds); rewrite Hrec; reflexivity.
      + intros p j i Hp Hj Hi; rewrite ab by exact Hj.
        unfold F; rewrite at2_tab2 by (try apply idx_lt; assumption).
        rewrite div_idx, mod_idx by exact Hj; reflexivity. }
  clear Hd; destruct HB as (s3 & F & B & Hpred & HB & wB & b0 & b1 & b2 & ab).
  destruct (predict_keep s2 Hpred) as (_ & _ & K1 & K2 & K3 & K4 & _).
  change (p_ntrain s2) with (p_ntrain s) in K1; change (p_train s2) with (p_train s) in K2;
  change (p_par s2) with (Some (S2 par)) in K3; change (p_pod s2) with (p_pod s) in K4.
  (* the interpolation *)
  destruct (@interp_total tr par (slices0 (roll_shape v0 B)) k r (p_app s3) Hint) as (a & Rs & Hi & LR & HR).
  { rewrite slices_roll; intros M' HM'; apply in_map_iff in HM' as (i & <- & _).
    split; [apply wf2_tab2|split; [exact b0|exact b1]]. }
  rewrite slices_roll in LR, HR; rewrite map_length, seq_length, b2 in LR, HR.
  destruct (@dstack_total V v0 (length par) r Rs) as (J & HJ & J0 & J1).
  { intro Z; rewrite Z in LR; simpl in LR; lia. }
  { intros A HA; destruct (In_nth _ _ (A2 0 0 []) HA) as (i & Hi' & <-).
    destruct (HR i (A2 0 0 []) (A2 0 0 [])) as (h1 & h2 & _); [lia|auto]. }
  destruct (dstack_ok _ _ HJ) as (_ & wJ & J2 & aJ); rewrite LR in J2, aJ.
  assert (Hpl : 0 < length par) by (destruct par; [congruence|simpl; lia]).
  assert (Hint2 : p_interpolated v0 s2 = (with_app s3 a, Ok J)).
  { unfold p_interpolated; rewrite Hpred; unfold interpolate; rewrite K3, K1, K2, En, Htr; cbn [slen].
    destruct (length par); [lia|]; rewrite HB, Hi; simpl; rewrite HJ; reflexivity. }
  (* the expansion *)
  destruct (@apply_axis1_total V v0 (pod_expand E P) J (n1 X)) as (D & HD & D1); [lia|lia| |].
  { intros i j _ _; rewrite <- rM; apply Psz; unfold fibre; rewrite map_length, seq_length, J1; reflexivity. }
  exists (with_app s3 a), D.
  split. { unfold p_reconstructed; rewrite Hint2; change (p_pod (with_app s3 a)) with (p_pod s3); rewrite K4, Epod, HD; reflexivity. }
  destruct (apply_axis1_ok _ _ _ HD) as (wD & D0 & D2 & HDa).
  split; [lia|split; [exact D1|split; [lia|]]].
  intros q p Hq Hp Heq x i Hx Hi'.
  destruct (HDa q i) as (vv & Hv & Lv & av); [lia|lia|].
  rewrite av by lia.
  assert (Efib : fibre v0 J q i = column v0 C (p * n + i)).
  { unfold column; rewrite (fibre_ext v0 J q i (fun j => at2 v0 C j (p * n + i))); [rewrite J1; reflexivity|].
    intros j Hj; destruct (aJ i) as (_ & _ & aR); [lia|]; rewrite aR by lia.
    destruct (HR i (A2 0 0 []) (A2 0 0 [])) as (_ & _ & H); [lia|].
    rewrite (H q p Hq Hp Heq) by lia.
    rewrite nth_map_seq by lia; rewrite at2_tab2 by lia; apply ab; lia. }
  assert (Hc : p * n + i < k * n) by (apply idx_lt; assumption).
  rewrite Efib, Pex in Hv by lia; injection Hv as <-.
  unfold column; rewrite nth_map_seq by lia.
  rewrite aM by lia; rewrite div_idx, mod_idx by exact Hi'; reflexivity.
Qed.

(** ** C35: parameters are stored with one row per parameter, and the last assignment wins *)
Definition assigned (o : pop E) : option (pstored W) :=
  match o with OParams _ v => match normalise v with Ok t => Some t | Err _ => None end | _ => None end.
Definition last_assigned (l : list (pop E)) (start : option (pstored W)) : option (pstored W) :=
  fold_left (fun x o => match assigned o with Some t => Some t | None => x end) l start.

Lemma step_keep s o : p_part (fst (pstep v0 s o)) = p_part s /\ p_light (fst (pstep v0 s o)) = p_light s /\
  p_par (fst (pstep v0 s o)) = match assigned o with Some t => Some t | None => p_par s end.
Proof.
  assert (K : forall s s1 x, p_interpolated v0 s = (s1, x) -> p_part s1 = p_part s /\ p_light s1 = p_light s /\ p_par s1 = p_par s).
  { intros a a1 x; unfold p_interpolated; destruct (predict_coeffs a) as [a2 [F|]] eqn:Hp;
      destruct (predict_keep a Hp) as (<- & <- & _ & _ & <- & _); [|intro H; injection H as <- _; auto].
    unfold interpolate; destruct (p_par a2) as [par|] eqn:Hpar; [|intro H; injection H as <- _; auto].
    destruct (slen par) as [[|]|]; try (intro H; injection H as <- _; auto; fail).
    destruct (p_ntrain a2), (p_train a2); try (intro H; injection H as <- _; auto; fail).
    destruct (split_rows _ _); try (intro H; injection H as <- _; auto; fail).
    destruct (interp_slices _ _ _ _ _) as [b y]; intro H; injection H as <- _; simpl; auto. }
  destruct o as [X v|v|t| | | | |]; simpl; auto.
  - unfold p_fit; destruct (plen v) as [n|]; simpl; auto; destruct (n0 X =? n); simpl; auto.
    destruct (p_part s && _); simpl; auto; destruct (normalise v); simpl; auto; destruct (arrange v0 X); simpl; auto.
    destruct (pod_fit E _); simpl; auto; destruct (pod_reduce E _ _); simpl; auto; destruct (split_cols v0 _ _); simpl; auto.
    unfold fit_dmds; destruct (p_light s) eqn:Hl; simpl; destruct (p_part s) eqn:Hp; simpl;
      try (destruct (fit_each E _ _); simpl; auto); destruct (vstack _); simpl; auto; destruct (p_dmds s); simpl; auto;
      destruct (dmd_fit E _ _); simpl; auto.
  - unfold p_set_parameters; destruct (normalise v); simpl; auto.
  - unfold p_set_time; destruct (p_dmds s); simpl; auto.
  - unfold p_forecasted; destruct (predict_coeffs s) as [s1 x] eqn:Hp; simpl; destruct (predict_keep s Hp) as (? & ? & _ & _ & ? & _); auto.
  - destruct (p_interpolated v0 s) as [s1 x] eqn:Hp; simpl; eapply K; exact Hp.
  - unfold p_reconstructed; destruct (p_interpolated v0 s) as [s1 [x|]] eqn:Hp; simpl; eapply K; exact Hp.
Qed.

Theorem C35_parameters :
  (forall s l, p_set_parameters s (P1 l) = (with_par s (S2 (map (fun w => [w]) l)), Ok tt)) /\
  (forall s rows, p_set_parameters s (P2 rows) = (with_par s (S2 rows), Ok tt)) /\
  (forall s d, p_set_parameters s (PMore d) = (s, Err ValueError)) /\
  (forall s l, p_par (prun v0 s l) = last_assigned l (p_par s)).
Proof.
  split; [reflexivity|split; [reflexivity|split; [reflexivity|]]].
  intros s l; revert s; induction l as [|o l IH]; intro s; [reflexivity|].
  unfold prun, last_assigned; simpl; fold (prun v0 (fst (pstep v0 s o)) l).
  rewrite IH; destruct (step_keep s o) as (_ & _ & ->); reflexivity.
Qed.

(** what a fit stores: the training parameters and their number, and nothing about the queries *)
Theorem C35_training_parameters s X v s' : p_fit v0 s X v = (s', Ok tt) ->
  plen v = Ok (n0 X) /\ (exists t, normalise v = Ok t /\ p_train s' = Some t) /\ p_par s' = p_par s.
Proof.
  intro H; destruct (p_fit_inv _ _ _ H) as (t & M & P & C & l & Hn & Ht & _ & _ & _ & _ & _ & Hd).
  split; [exact Hn|].
  assert (K : p_train s' = Some t /\ p_par s' = p_par s).
  { unfold fit_dmds in Hd; destruct (p_light s); simpl in Hd; destruct (p_part s).
    all: try (destruct (fit_each _ _ _); injection Hd as <- _; simpl; auto; fail).
    all: destruct (vstack l); [|discriminate]; destruct (p_dmds s); [discriminate|].
    all: destruct (dmd_fit _ _ _); injection Hd as <- _; simpl; auto. }
  destruct K; split; [exists t; auto|assumption].
Qed.

(** ** C35: the number of training parameters is checked before anything is fitted *)
Theorem C35_fit_checks s X v n : plen v = Ok n -> n <> n0 X -> p_fit v0 s X v = (s, Err ValueError).
Proof. intros H Hn; unfold p_fit; rewrite H; destruct (Nat.eqb_spec (n0 X) n); [congruence|reflexivity]. Qed.
Theorem C35_instances_checked s X v : p_part s = true -> length (p_dmds s) <> n0 X ->
  forall s' x, p_fit v0 s X v = (s', x) ->
  (exists e, x = Err e) /\ p_dmds s' = p_dmds s /\ p_pod s' = p_pod s /\ p_train s' = p_train s /\ p_coef s' = p_coef s /\
  (plen v = Ok (n0 X) -> x = Err ValueError).
Proof.
  intros Hp Hl s' x; unfold p_fit.
  destruct (plen v) as [n|e]; [|intro H; injection H as <- <-; repeat split; eauto; discriminate].
  destruct (Nat.eqb_spec (n0 X) n) as [<-|Hne]; cbn [negb]; [|intro H; injection H as <- <-; repeat split; eauto].
  change (p_part (with_ntrain s (n0 X))) with (p_part s); change (p_dmds (with_ntrain s (n0 X))) with (p_dmds s); rewrite Hp.
  destruct (Nat.eqb_spec (n0 X) (length (p_dmds s))); [congruence|]; cbn [negb andb].
  intro H; injection H as <- <-; repeat split; eauto.
Qed.
(** but a refused fit has already changed the number of training parameters: an instance that gave the
    forecasts of k parameters gives those of k' afterwards, cut from the same numbers *)
Theorem C35_failed_fit_refuted s X v k' s1 F :
  p_part s = true -> predict_coeffs s = (s1, Ok F) ->
  length (p_dmds s) <> n0 X -> plen v = Ok (n0 X) -> k' = n0 X -> 0 < k' -> 0 < c2 F ->
  forall r, r2 F = k' * r ->
  exists s', p_fit v0 s X v = (s', Err ValueError) /\
    exists s1' B, p_forecasted s' = (s1', Ok B) /\ n0 B = k' /\ n1 B = r /\ d3 B = d2 F.
Proof.
  intros Hp HF Hl Hv -> k0 c0 r Hr; exists (with_ntrain s (n0 X)); split.
  - unfold p_fit; rewrite Hv, Nat.eqb_refl; cbn [negb].
    change (p_part (with_ntrain s (n0 X))) with (p_part s); change (p_dmds (with_ntrain s (n0 X))) with (p_dmds s); rewrite Hp.
    destruct (Nat.eqb_spec (n0 X) (length (p_dmds s))); [congruence|]; reflexivity.
  - assert (HF' : exists s2, predict_coeffs (with_ntrain s (n0 X)) = (s2, Ok F) /\ p_ntrain s2 = Some (n0 X)).
    { unfold predict_coeffs, sync_times in *; cbn [p_part p_dmds with_ntrain].
      rewrite Hp in *; destruct (p_dmds s) as [|d ds] eqn:Hds.
      { injection HF as _ HF; rewrite Hds in HF; discriminate HF. }
      destruct (dmd_time E d); [|discriminate]; destruct ds as [|d1 ds].
      { apply (f_equal snd) in HF; cbn [snd] in HF; eexists; split; [apply (f_equal2 pair eq_refl HF)|reflexivity]. }
      destruct (dmd_time E _); [|discriminate].
      apply (f_equal snd) in HF; cbn [snd] in HF; eexists; split; [apply (f_equal2 pair eq_refl HF)|reflexivity]. }
    destruct HF' as (s2 & HF' & Hn); exists s2.
    assert (Hd : r2 F * c2 F = r * (n0 X * c2 F)) by (rewrite Hr; ring).
    exists (A3 (n0 X) r (c2 F) (d2 F)); repeat split.
    unfold p_forecasted; rewrite HF'; simpl; rewrite Hn; f_equal; unfold split_rows.
    destruct (Nat.eqb_spec (n0 X * c2 F) 0); [nia|].
    rewrite Hd, Nat.mod_mul, Nat.div_mul by assumption; reflexivity.
Qed.

(** ** C35: the time dictionaries *)
Theorem C35_time_assigned s t : time_law E -> p_dmds s <> [] ->
  exists s', p_set_time s t = (s', Ok tt) /\ p_get_time s' = Ok t /\ length (p_dmds s') = length (p_dmds s).
Proof.
  intros HL Hn; unfold p_set_time, p_get_time; destruct (p_dmds s) as [|d ds]; [congruence|].
  eexists; split; [reflexivity|]; simpl; split; [apply HL|reflexivity].
Qed.

Lemma predict_times s s1 x t : time_law E -> p_part s = true -> p_get_time s = Ok t -> predict_coeffs s = (s1, x) ->
  Forall (fun d => dmd_time E d = Ok t) (p_dmds s1) /\ length (p_dmds s1) = length (p_dmds s) /\
  p_dmds s1 = map (fun d => dmd_set_time E d t) (p_dmds s).
Proof.
  intros HL Hp Ht H; unfold p_get_time in Ht; destruct (p_dmds s) as [|d ds] eqn:Hd; [discriminate|].
  unfold predict_coeffs in H; rewrite Hp, (sync_time_law s HL Hd Ht) in H; injection H as <- _; cbn [p_dmds with_dmds]; rewrite Hd.
  split; [|split; [apply map_length|reflexivity]].
  apply Forall_forall; intros e He; apply in_map_iff in He as (e' & <- & _); apply HL.
Qed.

Definition reading (o : pop E) : Prop := o = OForecasted E \/ o = OInterpolated E \/ o = OReconstructed E.
Lemma interpolate_dmds s F : p_dmds (fst (interpolate v0 s F)) = p_dmds s.
Proof.
  unfold interpolate; destruct (p_par s) as [par|]; [|reflexivity]; destruct (slen par) as [[|]|]; try reflexivity.
  destruct (p_ntrain s), (p_train s); try reflexivity; destruct (split_rows _ _); [|reflexivity].
  destruct (interp_slices _ _ _ _ _); reflexivity.
Qed.
Lemma reading_dmds s o : reading o -> p_dmds (fst (pstep v0 s o)) = p_dmds (fst (predict_coeffs s)).
Proof.
  assert (K : p_dmds (fst (p_interpolated v0 s)) = p_dmds (fst (predict_coeffs s))).
  { unfold p_interpolated; destruct (predict_coeffs s) as [s1 [F|]]; [apply interpolate_dmds|reflexivity]. }
  intros [-> | [-> | ->]]; simpl; [|exact K|].
  - unfold p_forecasted; destruct (predict_coeffs s); reflexivity.
  - unfold p_reconstructed; rewrite <- K; destruct (p_interpolated v0 s) as [s1 [J|]]; reflexivity.
Qed.

(** every read puts all the instances on the reference's times, and keeps them; the reference itself
    is never changed by a read *)
Theorem C35_times_in_step s o t : time_law E -> p_part s = true -> reading o -> p_get_time s = Ok t ->
  let s1 := fst (pstep v0 s o) in
  p_get_time s1 = Ok t /\ length (p_dmds s1) = length (p_dmds s) /\
  Forall (fun d => dmd_time E d = Ok t) (p_dmds s1).
Proof.
  intros HL Hp Hr Ht s1; unfold s1.
  assert (Hd : p_dmds s <> []) by (intro Z; unfold p_get_time in Ht; rewrite Z in Ht; discriminate).
  rewrite (reading_dmds s Hr); destruct (predict_coeffs s) as [s2 x] eqn:Hx.
  destruct (predict_times s HL Hp Ht Hx) as (F & L & _).
  split; [|split; [exact L|exact F]].
  unfold p_get_time; rewrite (reading_dmds s Hr), Hx; cbn [fst].
  destruct (p_dmds s2) as [|d ds] eqn:Hz; [|inversion F; assumption].
  simpl in L; destruct (p_dmds s); [congruence|discriminate].
Qed.

(** an assigned time survives any number of reads *)
Theorem C35_time_survives s t l : time_law E -> p_part s = true -> p_dmds s <> [] -> Forall reading l ->
  p_get_time (prun v0 (fst (p_set_time s t)) l) = Ok t.
Proof.
  intros HL Hp Hd Hl; assert (Hg : p_get_time (fst (p_set_time s t)) = Ok t).
  { destruct (C35_time_assigned s t HL Hd) as (s' & -> & Hg & _); exact Hg. }
  assert (Hp' : p_part (fst (p_set_time s t)) = true) by (destruct (step_keep s (OTime E t)) as (K & _); rewrite <- Hp; exact K).
  revert Hg Hp'; generalize (fst (p_set_time s t)); clear s Hp Hd; induction Hl as [|o l Ho Hl IH]; intros s Hg Hp; [exact Hg|].
  unfold prun; simpl; apply IH; [apply (C35_times_in_step s HL Hp Ho Hg)|].
  destruct (step_keep s o) as (-> & _); exact Hp.
Qed.

(** ** C35: reads that are refused *)
Theorem C35_refusals s :
  (forall s1 F, predict_coeffs s = (s1, Ok F) -> p_par s = None \/ p_par s = Some (S2 []) ->
     p_interpolated v0 s = (s1, Err ValueError) /\ p_reconstructed v0 s = (s1, Err ValueError)) /\
  (p_light s = true \/ p_coef s = None -> p_training_coeffs s = Err RuntimeError) /\
  (forall d ds e, p_dmds s = d :: ds ->
     (if p_part s then dmd_time E d = Err e else dmd_rec E d = Err e) ->
     p_forecasted s = (s, Err e) /\ p_interpolated v0 s = (s, Err e) /\ p_reconstructed v0 s = (s, Err e)).
Proof.
  split; [|split].
  - intros s1 F HF Hpar; destruct (predict_keep s HF) as (_ & _ & _ & _ & K & _).
    assert (Hi : p_interpolated v0 s = (s1, Err ValueError)).
    { unfold p_interpolated; rewrite HF; unfold interpolate; rewrite K; destruct Hpar as [-> | ->]; reflexivity. }
    unfold p_reconstructed; rewrite Hi; auto.
  - unfold p_training_coeffs; intros [-> | ->]; [reflexivity|destruct (p_light s); reflexivity].
  - intros d ds e Hd H.
    assert (HF : predict_coeffs s = (s, Err e)).
    { unfold predict_coeffs, sync_times; rewrite Hd; destruct (p_part s); rewrite H; reflexivity. }
    unfold p_forecasted, p_reconstructed, p_interpolated; rewrite HF; auto.
Qed.
End P.

(** ** A concrete case: two parameters, two points, two instants; an identity POD, instances that keep their data
    and an interpolator that looks the query up *)
Section Example.
Definition ex_find (tr : list (list nat)) (w : list nat) : option nat :=
  find (fun p => if list_eq_dec Nat.eq_dec (nth p tr []) w then true else false) (seq 0 (length tr)).
Definition ex_env : env nat nat := {|
  e_D := option (arr2 nat) * option nat; e_T := nat; e_P := unit; e_A := option (list (list nat) * arr2 nat);
  dmd_fit := fun _ A => ((Some A, Some (c2 A)), Ok tt);
  dmd_time := fun d => match snd d with Some t => Ok t | None => Err RuntimeError end;
  dmd_set_time := fun d t => (fst d, Some t);
  dmd_rec := fun d => match d with (Some A, Some t) => Ok (tab2 (r2 A) t (at2 0 A)) | _ => Err AttributeError end;
  pod_fit := fun _ => Ok tt; pod_reduce := fun _ M => Ok M; pod_expand := fun _ v => Ok v;
  app_fit := fun _ t M => match t with S2 tr => Ok (Some (tr, M)) | S0 _ => Err ValueError end;
  app_predict := fun a t =>
    match a, t with
    | Some (tr, M), S2 par => Ok (tab2 (length par) (c2 M) (fun q j =>
        match ex_find tr (nth q par []) with Some p => at2 0 M p j | None => 0 end))
    | _, _ => Err ValueError end |}.
Definition ex_X : arr3 nat := A3 2 2 2 [1; 2; 3; 4; 5; 6; 7; 8].
Definition ex_start (part : bool) : pstate ex_env :=
  p_init ex_env part false ((None, None) :: if part then [(None, None)] else []) None.
Definition ex_fitted (part : bool) : pstate ex_env := fst (p_fit 0 (ex_start part) ex_X (P1 [10; 20])).
Definition ex_par : list (list nat) := [[20]; [10]; [20]].

Example C34_roll_case : array3 ex_X /\ d3 (roll_shape 0 ex_X) = [1; 3; 5; 7; 2; 4; 6; 8] /\
  d3 (back_roll_shape 0 ex_X) = [1; 5; 2; 6; 3; 7; 4; 8].
Proof. repeat split. Qed.
Example C34_fit_case part : p_fit 0 (ex_start part) ex_X (P1 [10; 20]) = (ex_fitted part, Ok tt).
Proof. destruct part; reflexivity. Qed.
Example C34_fit_monolithic : p_dmds (ex_fitted false) = [(Some (A2 4 2 [1; 2; 3; 4; 5; 6; 7; 8]), Some 2)].
Proof. reflexivity. Qed.
Example C34_forecast_case part : exists s1, p_forecasted (ex_fitted part) = (s1, Ok ex_X).
Proof. destruct part; eexists; reflexivity. Qed.
Example C34_interpolated_case part : exists s1, p_interpolated 0 (with_par (ex_fitted part) (S2 ex_par)) =
  (s1, Ok (A3 3 2 2 [5; 6; 7; 8; 1; 2; 3; 4; 5; 6; 7; 8])).
Proof. destruct part; eexists; vm_compute; reflexivity. Qed.
Example C34_reconstructed_case part : exists s1, p_reconstructed 0 (with_par (ex_fitted part) (S2 ex_par)) =
  (s1, Ok (A3 3 2 2 [5; 6; 7; 8; 1; 2; 3; 4; 5; 6; 7; 8])).
Proof. destruct part; eexists; vm_compute; reflexivity. Qed.

Lemma ex_time_law : time_law ex_env.
Proof. intros d t; reflexivity. Qed.
Lemma ex_interpolates k r : k = 2 -> interpolates 0 ex_env k r [[10]; [20]] ex_par.
Proof.
  intros -> a M wM rM cM; eexists; eexists; split; [reflexivity|split; [reflexivity|split; [reflexivity|split; [exact cM|]]]].
  intros q p Hq Hp He j Hj; rewrite at2_tab2 by (try rewrite cM; assumption).
  destruct p as [|[|p]]; [| |lia]; destruct q as [|[|[|q]]]; try (simpl in Hq; lia); simpl in He; try discriminate He; reflexivity.
Qed.
Example C34_exact_case part : exists s1 R, p_reconstructed 0 (with_par (ex_fitted part) (S2 ex_par)) = (s1, Ok R) /\
    n0 R = 3 /\ n1 R = 2 /\ n2 R = 2 /\
    forall q p, q < 3 -> p < 2 -> nth_error ex_par q = nth_error [[10]; [20]] p ->
    forall x i, x < 2 -> i < 2 -> at3 0 R q x i = at3 0 ex_X p x i.
Proof.
  refine (@C34_exact nat 0 nat ex_env _ _ _ _ [[10]; [20]] ex_par 2 (C34_fit_case part) _ _ _ _); [simpl; lia|destruct part; reflexivity|discriminate|].
  intros P M C _ (wM & rM & cM & aM) _ HC; injection HC as <-; simpl in rM, cM, aM.
  split; [reflexivity|split; [split|split]].
  - reflexivity.
  - intros u Hu; exists u; split; [reflexivity|exact Hu].
  - apply ex_interpolates; reflexivity.
  - assert (EM : M = A2 2 4 [1; 2; 5; 6; 3; 4; 7; 8]).
    { apply (ext2 0); try assumption; try reflexivity; rewrite rM, cM; intros i j Hi Hj; rewrite aM by assumption.
      destruct i as [|[|i]]; [| |lia]; destruct j as [|[|[|[|j]]]]; try lia; reflexivity. }
    subst M; destruct part; simpl p_part; cbv iota.
    + split; [apply ex_time_law|split; [reflexivity|]]; repeat constructor.
    + eexists; eexists; split; reflexivity.
Qed.

Example C35_parameters_case : p_par (prun 0 (ex_start true) [OParams ex_env (P1 [7; 8]); OFit ex_env ex_X (P1 [10; 20]); OForecasted ex_env; OParams ex_env (PMore 3)])
  = Some (S2 [[7]; [8]]).
Proof. reflexivity. Qed.
Example C35_training_parameters_case : p_train (ex_fitted true) = Some (S2 [[10]; [20]]).
Proof. reflexivity. Qed.
Example C35_checks_case : plen (P1 [10; 20; 30]) = Ok 3 /\ 3 <> n0 ex_X.
Proof. split; [reflexivity|discriminate]. Qed.
(** a fit of one parameter on two fitted instances is refused, but the two forecasts are then read as one of four rows *)
Example C35_failed_fit_case : exists s' s1 B, p_fit 0 (ex_fitted true) (A3 1 2 2 [1; 2; 3; 4]) (P1 [10]) = (s', Err ValueError) /\
  p_forecasted s' = (s1, Ok B) /\ n0 B = 1 /\ n1 B = 4.
Proof. do 3 eexists; split; [reflexivity|split; [reflexivity|split; reflexivity]]. Qed.
Example C35_times_case : p_get_time (prun 0 (fst (p_set_time (ex_fitted true) 1)) [OForecasted ex_env; OReconstructed ex_env]) = Ok 1 /\
  exists s1, p_forecasted (fst (p_set_time (ex_fitted true) 1)) = (s1, Ok (A3 2 2 1 [1; 3; 5; 7])) /\
  map (dmd_time ex_env) (p_dmds s1) = [Ok 1; Ok 1].
Proof. split; [reflexivity|]; eexists; split; reflexivity. Qed.
Example C35_refusals_case : p_interpolated 0 (ex_fitted true) = (fst (p_forecasted (ex_fitted true)), Err ValueError) /\
  p_forecasted (ex_start true) = (ex_start true, Err RuntimeError) /\
  p_forecasted (ex_start false) = (ex_start false, Err AttributeError).
Proof. repeat split. Qed.
End Example.

Print Assumptions C34_roll.
Print Assumptions C34_fit.
Print Assumptions C34_forecast.
Print Assumptions C34_interpolated.
Print Assumptions C34_reconstructed.
Print Assumptions C34_exact.
Print Assumptions C35_parameters.
Print Assumptions C35_training_parameters.
Print Assumptions C35_fit_checks.
Print Assumptions C35_instances_checked.
Print Assumptions C35_failed_fit_refuted.
Print Assumptions C35_time_assigned.
Print Assumptions C35_times_in_step.
Print Assumptions C35_time_survives.
Print Assumptions C35_refusals.
