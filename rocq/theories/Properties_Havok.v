(** * C37, C38: HAVOK *)
From Coq Require Import List Arith ZArith QArith Bool Lia Lqa Sorted.
From Verif Require Import Py Model_Havok Proofs_Havok.
Import ListNotations.
Set Implicit Arguments.
Local Open Scope nat_scope.

Section C37.
Variables (V : Type) (cast : V -> V).

(** Row r*n+i, column j of the embedding is sample j + r*lag of variable i. *)
Theorem C37_hankel delays lag n m f : 1 <= delays -> lag * (delays - 1) + 1 <= m ->
  exists H, hankel cast delays lag (HV2 n m f) = Ok H /\ m_rows H = n * delays /\ m_cols H = m - (delays - 1) * lag /\
  forall r i j, r < delays -> i < n -> m_at H (r * n + i) j = Some (cast (f i (j + r * lag))).
Proof.
intros Hd Hm. unfold hankel.
destruct (Z.ltb_spec (Z.of_nat m) (Z.of_nat lag * (Z.of_nat delays - 1) + 1)); [nia|].
eexists. split; [reflexivity|]. destruct (hankel_shape cast delays lag n (Z.to_nat (Z.of_nat m - (Z.of_nat delays - 1) * Z.of_nat lag)) f) as [-> ->].
split; [reflexivity|]. split; [nia|].
intros r i j Hr Hi. unfold hankel_loop. rewrite hankel_at by assumption. now rewrite (Nat.add_comm j).
Qed.
(** a one-dimensional series is the matrix with one row *)
Theorem C37_series delays lag m f : hankel cast delays lag (HV1 m f) = hankel cast delays lag (HV2 1 m (fun _ j => f j)).
Proof. reflexivity. Qed.
(** ValueError exactly when the data is too short (or not a 1-D/2-D array) *)
Theorem C37_refusals delays lag (X : hv_input V) : 1 <= delays ->
  (exists e, hankel cast delays lag X = Err e) <->
  match X with HV1 m _ | HV2 _ m _ => m < lag * (delays - 1) + 1 | _ => True end.
Proof.
intro Hd. split.
- intros [e He]. destruct X as [m f|n m f| |]; try exact I; unfold hankel in He;
  destruct (Z.ltb_spec (Z.of_nat m) (Z.of_nat lag * (Z.of_nat delays - 1) + 1)) as [H|H]; try discriminate; nia.
- destruct X as [m f|n m f| |]; intro H; try (eexists; reflexivity); unfold hankel;
  destruct (Z.ltb_spec (Z.of_nat m) (Z.of_nat lag * (Z.of_nat delays - 1) + 1)) as [H'|H']; try (eexists; reflexivity); nia.
Qed.
Theorem C37_refusals_kind delays lag (X : hv_input V) e : hankel cast delays lag X = Err e -> e = ValueError.
Proof.
destruct X as [m f|n m f| |]; unfold hankel; intro H; try (injection H as <-; reflexivity);
destruct (Z.of_nat m <? Z.of_nat lag * (Z.of_nat delays - 1) + 1)%Z; try discriminate; injection H as <-; reflexivity.
Qed.

(** Un-embedding: the last delay that contains a sample provides it; a sample that no delay contains is not initialised. *)
Theorem C37_dehankel delays lag H : 1 <= delays -> exists R, dehankel cast delays lag (Some H) = Ok R /\
  let n := m_rows H / delays in
  m_rows (d_mat R) = n /\ m_cols (d_mat R) = m_cols H + (delays - 1) * lag /\
  forall i j,
  (forall r, r < delays -> r * lag <= j < r * lag + m_cols H ->
     (forall r', r < r' < delays -> ~ r' * lag <= j < r' * lag + m_cols H) ->
     m_at (d_mat R) i j = option_map cast (m_at H (r * n + i) (j - r * lag))) /\
  ((forall r, r < delays -> ~ r * lag <= j < r * lag + m_cols H) -> m_at (d_mat R) i j = None).
Proof.
intro Hd. unfold dehankel. destruct (Nat.eqb_spec delays 0); [lia|]. eexists. split; [reflexivity|]. cbn zeta. cbn [d_mat].
destruct (de_shape cast H (m_rows H / delays) lag (seq 0 delays) (empty V (m_rows H / delays) (m_cols H + (delays - 1) * lag))) as [-> ->].
split; [reflexivity|]. split; [reflexivity|]. intros i j. split.
- intros r Hr Hc Hn. exact (de_at_last cast H (m_rows H / delays) _ i Hr Hc Hn).
- intros Hn. now rewrite (de_at_none cast H (m_rows H / delays) _ i Hn).
Qed.

(** Round trip: with lag at most the number of columns of the embedding (or a single delay), every sample comes back. *)
Theorem C37_round_trip delays lag n m f : 1 <= delays -> lag * (delays - 1) + 1 <= m ->
  (forall i j, cast (f i j) = f i j) -> lag <= m - (delays - 1) * lag \/ delays = 1 ->
  exists H R, hankel cast delays lag (HV2 n m f) = Ok H /\ dehankel cast delays lag (Some H) = Ok R /\
  m_rows (d_mat R) = n /\ m_cols (d_mat R) = m /\
  (forall i j, i < n -> j < m -> m_at (d_mat R) i j = Some (f i j)) /\
  (n <> 1 -> m <> 1 -> d_shape R = [n; m]) /\ (n = 1 -> m <> 1 -> d_shape R = [m]).
Proof.
intros Hd Hm Hc Hl. destruct (@C37_hankel delays lag n m f ltac:(lia) Hm) as [H [E [Hr [Hcol Ha]]]].
exists H. unfold dehankel. destruct (Nat.eqb_spec delays 0); [lia|]. eexists. split; [exact E|]. split; [reflexivity|]. cbn [d_mat d_shape].
assert (En : m_rows H / delays = n) by (rewrite Hr; apply Nat.div_mul; lia). rewrite En.
assert (Em : m_cols H + (delays - 1) * lag = m) by nia.
destruct (de_shape cast H n lag (seq 0 delays) (empty V n (m_cols H + (delays - 1) * lag))) as [-> ->].
split; [reflexivity|]. split; [exact Em|]. split; [|split].
- intros i j Hi Hj. destruct (@coverage delays lag (m_cols H) j) as [r [Hr' Hcv]]; [lia|nia|rewrite Hcol; exact Hl|lia|].
  apply (@de_at_any V cast H n lag _ i j (Some (f i j)) delays r Hr' Hcv).
  intros r' Hr'' [Hc1 Hc2]. rewrite Ha by assumption. cbn. rewrite !Hc. now replace (j - r' * lag + r' * lag) with j by lia.
- intros H1 H2. rewrite Em. cbn. apply Nat.eqb_neq in H1, H2. now rewrite H1, H2.
- intros H1 H2. rewrite Em. cbn. apply Nat.eqb_neq in H2. apply Nat.eqb_eq in H1. now rewrite H1, H2.
Qed.
(** ... and otherwise some sample of the result is uninitialised memory *)
Theorem C37_round_trip_refuted delays lag n m f : 2 <= delays -> lag * (delays - 1) + 1 <= m -> m - (delays - 1) * lag < lag ->
  exists H R j, hankel cast delays lag (HV2 n m f) = Ok H /\ dehankel cast delays lag (Some H) = Ok R /\ j < m /\
  forall i, m_at (d_mat R) i j = None.
Proof.
intros Hd Hm Hl. assert (Hd1 : 1 <= delays) by lia.
destruct (@C37_hankel delays lag n m f ltac:(lia) Hm) as [H [E [Hr [Hcol Ha]]]].
destruct (@C37_dehankel delays lag H Hd1) as [R [ER [_ [_ HR]]]].
exists H, R, (m_cols H). split; [exact E|]. split; [exact ER|]. split; [nia|].
intro i. apply HR. intros r _ [H1 H2]. apply (@gap lag (m_cols H) r); [lia|split; assumption].
Qed.
(** Complex data: only what fits a float comes back. *)
Theorem C37_complex_refuted delays lag n m f i j : 1 <= delays -> lag * (delays - 1) + 1 <= m ->
  lag <= m - (delays - 1) * lag \/ delays = 1 -> (forall v, cast (cast v) = cast v) -> i < n -> j < m -> cast (f i j) <> f i j ->
  exists H R, hankel cast delays lag (HV2 n m f) = Ok H /\ dehankel cast delays lag (Some H) = Ok R /\
  m_at (d_mat R) i j = Some (cast (f i j)).
Proof.
intros Hd Hm Hl Hi2 Hi Hj _. destruct (@C37_hankel delays lag n m f ltac:(lia) Hm) as [H [E [Hr [Hcol Ha]]]].
exists H. unfold dehankel. destruct (Nat.eqb_spec delays 0); [lia|]. eexists. split; [exact E|]. split; [reflexivity|]. cbn [d_mat].
assert (En : m_rows H / delays = n) by (rewrite Hr; apply Nat.div_mul; lia). rewrite En.
destruct (@coverage delays lag (m_cols H) j) as [r [Hr' Hcv]]; [lia|nia|rewrite Hcol; exact Hl|nia|].
apply (@de_at_any V cast H n lag _ i j (Some (cast (f i j))) delays r Hr' Hcv).
intros r' Hr'' [Hc1 Hc2]. rewrite Ha by assumption. cbn. rewrite Hi2. now replace (j - r' * lag + r' * lag) with j by lia.
Qed.
(** rows that are not a multiple of [delays] are ignored without error *)
Theorem C37_spare_rows_refuted delays lag H H' : 1 <= delays ->
  m_rows H / delays = m_rows H' / delays -> m_cols H = m_cols H' ->
  (forall r j, r < delays * (m_rows H / delays) -> j < m_cols H -> m_at H r j = m_at H' r j) ->
  exists R R', dehankel cast delays lag (Some H) = Ok R /\ dehankel cast delays lag (Some H') = Ok R' /\
  d_shape R = d_shape R' /\ forall i j, i < m_rows (d_mat R) -> m_at (d_mat R) i j = m_at (d_mat R') i j.
Proof.
intros Hd En Ec Ha. unfold dehankel. destruct (Nat.eqb_spec delays 0); [lia|].
eexists; eexists. split; [reflexivity|]. split; [reflexivity|]. cbn [d_mat d_shape]. rewrite <- En, <- Ec.
split; [reflexivity|]. intros i j. set (nn := m_rows H / delays) in *.
destruct (de_shape cast H nn lag (seq 0 delays) (empty V nn (m_cols H + (delays - 1) * lag))) as [-> _]. cbn [m_rows empty]. intro Hi.
assert (G : forall k, k <= delays -> 
  m_at (fold_left (fun X i => write_cols cast X (i * lag) (m_cols H) (fun i' j => m_at H (i * nn + i') j)) (seq 0 k) (empty V nn (m_cols H + (delays - 1) * lag))) i j
  = m_at (fold_left (fun X i => write_cols cast X (i * lag) (m_cols H) (fun i' j => m_at H' (i * nn + i') j)) (seq 0 k) (empty V nn (m_cols H + (delays - 1) * lag))) i j).
{ induction k as [|k IH]; intro Hk; [reflexivity|]. rewrite seq_S, !fold_left_app. cbn [Nat.add fold_left write_cols m_at].
  destruct ((k * lag <=? j) && (j <? k * lag + m_cols H)) eqn:Ej; [|apply IH; lia].
  apply andb_prop in Ej; destruct Ej as [Ej1 Ej2]; apply Nat.leb_le in Ej1; apply Nat.ltb_lt in Ej2.
  rewrite Ha; [reflexivity| |lia]. assert (S k * nn <= delays * nn) by (apply Nat.mul_le_mono_r; lia). cbn in *; lia. }
apply G; lia.
Qed.
End C37.
Print Assumptions C37_hankel.
Print Assumptions C37_series.
Print Assumptions C37_refusals.
Print Assumptions C37_refusals_kind.
Print Assumptions C37_dehankel.
Print Assumptions C37_round_trip.
Print Assumptions C37_round_trip_refuted.
Print Assumptions C37_complex_refuted.
Print Assumptions C37_spare_rows_refuted.

(** two variables, seven samples, three delays with lag two: three columns; with lag three one column only *)
Example C37_case : 2 * (3 - 1) + 1 <= 7 /\ 2 <= 7 - (3 - 1) * 2 /\
  (let f (i j : nat) := (10 * i + j)%nat in
   match hankel (fun v => v) 3 2 (HV2 2 7 f) with
   | Ok H => (m_rows H, m_cols H, m_at H 3 2, m_at H 5 2) = (6, 3, Some 14, Some 16) /\
             match dehankel (fun v => v) 3 2 (Some H) with Ok R => m_at (d_mat R) 1 6 = Some 16 | Err _ => False end
   | Err _ => False end) /\
  (3 * (3 - 1) + 1 <= 7 /\ 7 - (3 - 1) * 3 < 3).
Proof. repeat split; try lia. Qed.

Section C38.
Open Scope Z_scope.
(** The slices of active indexes: the indexes split, in order, into groups whose consecutive gaps are at most the jump distance,
    with more than it between the groups; a slice is the first and the last index of its group. *)
Theorem C38_slices (x : list Z) (d : Z) : x <> [] -> exists gs,
  index_slices x d = Ok (map (fun g => (hd 0 g, last g 0)) gs) /\ concat gs = x /\
  (forall g, In g gs -> g <> []) /\
  (forall g u a b v, In g gs -> g = u ++ a :: b :: v -> b - a <= d) /\
  (forall u g h v, gs = u ++ g :: h :: v -> d < hd 0 h - last g 0).
Proof.
destruct x as [|a t]; intro H; [congruence|]. exists (runs d (a :: t)).
split; [apply runs_slices|]. split; [apply runs_concat|]. split; [|split].
- apply Forall_forall, runs_nonempty.
- intros g u b c v Hg E. assert (T := runs_tight d a t). rewrite Forall_forall in T. apply (T g Hg (b, c)).
  subst g. clear. induction u as [|y u IH]; [now left|]. cbn [app]. destruct u as [|y' u].
  + right. exact IH.
  + right. exact IH.
- assert (S := runs_separated d a t). revert S. generalize (runs d (a :: t)). clear. intros gs S u g h v E. revert gs S E.
  induction u as [|y u IH]; intros gs S ->; [exact (proj1 S)|]. apply (IH (u ++ g :: h :: v)); [|reflexivity].
  destruct u; exact (proj2 S).
Qed.
Theorem C38_no_slices d : index_slices [] d = Err IndexError.
Proof. reflexivity. Qed.

Lemma in_pairs_sorted x : StronglySorted Z.lt x -> forall u a v, x = u ++ a :: v -> forall b, In b u -> b < a.
Proof.
intros S u; revert x S; induction u as [|y u IH]; intros x S a v E b Hb; [destruct Hb|].
subst x. inversion S as [|? ? S1 S2]; subst. destruct Hb as [<-|Hb].
- rewrite Forall_forall in S2. apply S2. apply in_or_app. right. now left.
- now apply (IH _ S1 a v eq_refl).
Qed.
Lemma sorted_app u v : StronglySorted Z.lt (u ++ v) -> StronglySorted Z.lt u /\ StronglySorted Z.lt v /\ forall a b, In a u -> In b v -> a < b.
Proof.
induction u as [|y u IH]; cbn; intro S; [split; [constructor|split; [assumption|intros a b []]]|].
inversion S as [|? ? S1 S2]; subst. destruct (IH S1) as [H1 [H2 H3]]. rewrite Forall_forall in S2.
split; [constructor; [assumption|]|split; [assumption|]].
- rewrite Forall_forall. intros b Hb. apply S2, in_or_app; now left.
- intros a b [<-|Ha] Hb; [apply S2, in_or_app; now right|now apply H3].
Qed.
Lemma sorted_bounds g : StronglySorted Z.lt g -> g <> [] -> forall i, In i g -> hd 0 g <= i <= last g 0.
Proof.
induction g as [|a g IH]; intros S Hn i Hi; [congruence|]. inversion S as [|? ? S1 S2]; subst. rewrite Forall_forall in S2.
destruct g as [|b g]; [destruct Hi as [<-|[]]; cbn; lia|].
assert (Hn' : b :: g <> []) by discriminate. change (last (a :: b :: g) 0) with (last (b :: g) 0). cbn [hd].
assert (HL : b <= last (b :: g) 0) by (apply (IH S1 Hn' b); now left).
destruct Hi as [<-|Hi].
- specialize (S2 b (or_introl eq_refl)). lia.
- destruct (IH S1 Hn' i Hi) as [_ H]. specialize (S2 i Hi). lia.
Qed.
Lemma sorted_concat gs : StronglySorted Z.lt (concat gs) -> forall g, In g gs -> StronglySorted Z.lt g.
Proof.
induction gs as [|h gs IH]; cbn; intros S g Hg; [destruct Hg|]. destruct (sorted_app _ _ S) as [S1 [S2 _]].
destruct Hg as [<-|Hg]; [assumption|now apply IH].
Qed.
(** For increasing indexes every index lies in one slice and in no other. *)
Theorem C38_slices_cover (x : list Z) (d : Z) sl : StronglySorted Z.lt x -> index_slices x d = Ok sl ->
  (forall i, In i x -> exists! s, In s sl /\ fst s <= i <= snd s) /\
  (forall s, In s sl -> In (fst s) x /\ In (snd s) x).
Proof.
intros S E. destruct x as [|a0 t]; [discriminate|].
destruct (@C38_slices (a0 :: t) d) as [gs [E' [Ec [Hn _]]]]; [discriminate|].
rewrite E in E'. injection E' as ->. rewrite <- Ec in *. clear Ec E a0 t. split.
- induction gs as [|g gs IH]; intros i Hi; [destruct Hi|]. cbn in Hi, S. destruct (sorted_app _ _ S) as [S1 [S2 S3]].
  assert (N : g <> []) by (apply Hn; now left).
  assert (last_in : In (last g 0) g) by (destruct (exists_last N) as [u [z ->]]; rewrite last_last; apply in_or_app; right; now left).
  assert (after : forall h, In h gs -> In (hd 0 h) h).
  { intros h Hh. assert (h <> []) by (apply Hn; now right). destruct h; [congruence|now left]. }
  apply in_app_or in Hi. destruct Hi as [Hi|Hi].
  + exists (hd 0 g, last g 0). split; [split; [now left|now apply sorted_bounds]|].
    intros s [[<-|Hs] Hb]; [reflexivity|]. exfalso. apply in_map_iff in Hs. destruct Hs as [h [<- Hh]]. cbn in Hb.
    assert (i < hd 0 h) by (apply S3; [assumption|apply in_concat; exists h; split; [assumption|now apply after]]). lia.
  + destruct (IH S2 (fun g0 H => Hn g0 (or_intror H)) i Hi) as [s [[Hs Hb] U]]. exists s. split; [split; [now right|assumption]|].
    intros s' [[<-|Hs'] Hb']; [|apply U; now split]. exfalso. cbn in Hb'.
    assert (last g 0 < i) by now apply S3. lia.
- intros s Hs. apply in_map_iff in Hs. destruct Hs as [g [<- Hg]]. cbn.
  assert (N := Hn g Hg). split; apply in_concat; exists g; (split; [assumption|]).
  + destruct g; [congruence|now left].
  + destruct (exists_last N) as [u [z ->]]; rewrite last_last; apply in_or_app; right; now left.
Qed.
(** With jump distance one the slices are the maximal runs: they contain nothing but the indexes. *)
Theorem C38_slices_exact (x : list Z) sl : StronglySorted Z.lt x -> index_slices x 1 = Ok sl ->
  forall i, In i x <-> exists s, In s sl /\ fst s <= i <= snd s.
Proof.
intros S E i. split.
- intro Hi. destruct (@C38_slices_cover x 1 sl S E) as [H _]. destruct (H i Hi) as [s [Hs _]]. now exists s.
- intros [s [Hs Hb]]. destruct x as [|a0 t]; [discriminate|].
  destruct (@C38_slices (a0 :: t) 1) as [gs [E' [Ec [Hn [Ht _]]]]]; [discriminate|].
  rewrite E in E'. injection E' as ->. apply in_map_iff in Hs. destruct Hs as [g [<- Hg]]. cbn in Hb.
  rewrite <- Ec. apply in_concat. exists g. split; [assumption|].
  specialize (Hn g Hg). specialize (fun u a b v => Ht g u a b v Hg). clear - Hn Ht Hb.
  induction g as [|a [|b g] IH]; [congruence|cbn in Hb; left; lia|].
  assert (b - a <= 1) by (apply (Ht [] a b g); reflexivity).
  destruct (Z.eq_dec a i) as [->|Hne]; [now left|]. right. apply IH; [|discriminate|].
  + cbn [hd]. change (last (a :: b :: g) 0) with (last (b :: g) 0) in Hb. cbn [hd] in Hb. lia.
  + intros u a' b' v E. apply (Ht (a :: u) a' b' v). cbn. now rewrite E.
Qed.
End C38.
Print Assumptions C38_slices.
Print Assumptions C38_slices_cover.
Print Assumptions C38_slices_exact.
(** the example of the docstring *)
Example C38_slices_case : index_slices [2; 3; 4; 5; 10; 11; 12; 25; 26; 28]%Z 2 = Ok [(2, 5); (10, 12); (25, 28)]%Z
  /\ StronglySorted Z.lt [2; 3; 4; 5; 10; 11; 12; 25; 26; 28]%Z.
Proof. split; [reflexivity|]. repeat constructor. Qed.

Section C38_threshold.
Open Scope Q_scope.
(** p as a float: the bins before the first chosen one hold at most p/2 of the samples, those after the second less than
    p/2, and the threshold is the mean of the two absolute values. *)
Theorem C38_threshold (hx hy : list Q) (p t : Q) : total hy == 1 -> 0 <= p -> threshold hx hy (PFloat p) = Ok t ->
  exists i1 i2, (i1 < length hy)%nat /\ (i2 < length hy)%nat /\
    total (firstn i1 hy) <= (1 # 2) * p /\ (1 # 2) * p < total (firstn (S i1) hy) /\
    total (skipn (S i2) hy) < (1 # 2) * p /\ (i2 = 0%nat \/ (1 # 2) * p <= total (skipn i2 hy)) /\
    t == (Qabs' (nth i1 hx 0) + Qabs' (nth i2 hx 0)) / 2.
Proof.
intros Ht Hp. unfold threshold.
destruct (first_true (map (fun c => Qltb ((1 # 2) * p) c) (cumsum hy))) as [i1|] eqn:E1; [|discriminate].
destruct (first_true (map (fun c => Qltb (1 - c) ((1 # 2) * p)) (cumsum hy))) as [i2|] eqn:E2; [|discriminate].
intros [= <-]. exists i1, i2.
destruct (first_true_some _ 0 _ E1) as [L1 [A1 B1]]. destruct (first_true_some _ 0 _ E2) as [L2 [A2 B2]].
unfold cumsum in L1, L2. rewrite cumsum_from_len in L1, L2.
apply Qltb_lt in A1, A2. rewrite cumsum_nth in A1, A2 by assumption.
assert (S2 := total_split hy (S i2)). rewrite Ht in S2.
repeat split; try assumption.
- destruct i1 as [|i1]; [cbn; lra|]. specialize (B1 i1 (Nat.lt_succ_diag_r _)). apply Qltb_ge in B1.
  rewrite cumsum_nth in B1 by lia. lra.
- lra.
- destruct i2 as [|i2]; [now left|]. right. specialize (B2 i2 (Nat.lt_succ_diag_r _)). apply Qltb_ge in B2.
  rewrite cumsum_nth in B2 by lia. assert (S3 := total_split hy (S i2)). rewrite Ht in S3. lra.
- field.
Qed.
(** It exists exactly for 0 < p < 2; p = 0.0 raises IndexError. *)
Theorem C38_threshold_defined (hx hy : list Q) (p : Q) : total hy == 1 -> nonneg hy ->
  (exists t, threshold hx hy (PFloat p) = Ok t) <-> 0 < p < 2.
Proof.
intros Ht Hn. unfold threshold.
assert (K : forall i, (i < length hy)%nat -> In (nth i (cumsum hy) 0) (cumsum hy)).
{ intros i Hi. apply nth_In. unfold cumsum. now rewrite cumsum_from_len. }
assert (B : forall c, In c (cumsum hy) -> c <= 1).
{ intros c Hc. destruct (In_nth _ _ 0 Hc) as [i [Hi <-]]. unfold cumsum in Hi. rewrite cumsum_from_len in Hi. rewrite cumsum_nth by assumption.
  assert (S1 := total_split hy (S i)). rewrite Ht in S1.
  assert (0 <= total (skipn (S i) hy)) by (apply total_nonneg; intros y Hy; apply Hn; rewrite <- (firstn_skipn (S i) hy); apply in_or_app; now right). lra. }
assert (N : hy <> []) by (intros ->; cbn in Ht; lra).
assert (Hl : (length hy - 1 < length hy)%nat) by (destruct hy; [congruence|cbn; lia]).
assert (One : nth (length hy - 1) (cumsum hy) 0 == 1).
{ rewrite cumsum_nth by assumption. replace (S (length hy - 1)) with (length hy) by lia. now rewrite firstn_all'. }
specialize (K _ Hl).
destruct (first_true (map (fun c => Qltb ((1 # 2) * p) c) (cumsum hy))) as [i1|] eqn:E1;
destruct (first_true (map (fun c => Qltb (1 - c) ((1 # 2) * p)) (cumsum hy))) as [i2|] eqn:E2.
- split; [intros _|intros _; eexists; reflexivity].
  destruct (first_true_some _ 0 _ E1) as [L1 [A1 _]]. destruct (first_true_some _ 0 _ E2) as [L2 [A2 _]].
  apply Qltb_lt in A1, A2. assert (H1 := B _ (nth_In _ 0 L1)). assert (H2 := B _ (nth_In _ 0 L2)). lra.
- split; [intros [t Hx]; discriminate|]. intros [H1 H2]. exfalso.
  apply first_true_none with (a := nth (length hy - 1) (cumsum hy) 0) in E2; [|assumption]. apply Qltb_ge in E2. lra.
- split; [intros [t Hx]; discriminate|]. intros [H1 H2]. exfalso.
  apply first_true_none with (a := nth (length hy - 1) (cumsum hy) 0) in E1; [|assumption]. apply Qltb_ge in E1. lra.
- split; [intros [t Hx]; discriminate|]. intros [H1 H2]. exfalso.
  apply first_true_none with (a := nth (length hy - 1) (cumsum hy) 0) in E1; [|assumption]. apply Qltb_ge in E1. lra.
Qed.
(** an integer p, documented to select a candidate, always raises *)
Theorem C38_integer_p_refuted hx hy z : threshold hx hy (PInt z) = Err TypeError.
Proof. reflexivity. Qed.
(** [p] is not an upper bound for the probability that the forcing exceeds the threshold *)
Definition exceed (hx hy : list Q) (t : Q) : Q :=
  total (map snd (filter (fun q => Qltb t (Qabs' (fst q))) (combine hx hy))).
Theorem C38_probability_refuted : forall p, 0 < p <= 1 # 2 -> exists hx hy t,
  total hy == 1 /\ nonneg hy /\ threshold hx hy (PFloat p) = Ok t /\ exceed hx hy t == 1 # 2.
Proof.
intros p [H1 H2]. exists [10; 11], [1 # 2; 1 # 2].
assert (N : nonneg [1 # 2; 1 # 2]) by (intros x [<-|[<-|[]]]; lra).
assert (A : Qltb ((1 # 2) * p) (0 + (1 # 2)) = true) by (apply Qltb_lt; lra).
assert (B : Qltb (1 - (0 + (1 # 2))) ((1 # 2) * p) = false) by (apply Qltb_ge; lra).
assert (C : Qltb (1 - (0 + (1 # 2) + (1 # 2))) ((1 # 2) * p) = true) by (apply Qltb_lt; lra).
eexists. split; [reflexivity|]. split; [exact N|]. split.
- unfold threshold, cumsum. cbn [cumsum_from map first_true]. rewrite A, B, C. cbn [option_map nth]. reflexivity.
- reflexivity.
Qed.
End C38_threshold.
Print Assumptions C38_threshold.
Print Assumptions C38_threshold_defined.
Print Assumptions C38_integer_p_refuted.
Print Assumptions C38_probability_refuted.
Example C38_threshold_case : let hx := [(-2); -(1); 0; 1; 2]%Q in let hy := [1 # 10; 2 # 10; 4 # 10; 2 # 10; 1 # 10] in
  total hy == 1 /\ threshold hx hy (PFloat (1 # 2)) = Ok ((1 # 2) * (1 + 1))%Q.
Proof. split; reflexivity. Qed.
