(** * C65: HAVOK.plot_summary *)
From Coq Require Import List ZArith Bool Arith Lia Sorting.Sorted.
From Verif Require Import Py Model_Havok Properties_Havok Model_HavokPlot Spec_HavokPlot.
Import ListNotations.
Set Implicit Arguments.

Section C65.
Variable T : Type.
Variable above : T -> bool.
Variable d : T.

Lemma firstn_values (l : list T) a n : a + n <= length l -> firstn n (skipn a l) = values d l a (a + n).
Proof.
  unfold values. replace (a + n - a) with n by lia. revert a. induction n as [|n IH]; intros a H; [reflexivity|].
  cbn [seq map]. rewrite <- IH by lia. clear IH. revert a H. induction l as [|x l IHl]; intros a H; [cbn in H; lia|].
  destruct a as [|a]; [reflexivity|]. cbn [skipn length nth] in *. rewrite IHl by lia. reflexivity.
Qed.
Lemma upto_values (l : list T) k : k <= length l -> upto (Z.of_nat k) l = values d l 0 k.
Proof.
  intros H. unfold upto. rewrite (proj2 (Z.leb_le _ _)) by lia. rewrite Nat2Z.id. exact (firstn_values l 0 k H).
Qed.
Lemma between_values (l : list T) a b : a <= b <= length l -> between (Z.of_nat a) (Z.of_nat b) l = values d l a b.
Proof.
  intros H. unfold between. rewrite !Nat2Z.id, firstn_values by lia. f_equal. lia.
Qed.
Lemma nth_values (l : list T) k i : i < k -> nth i (values d l 0 k) d = nth i l d.
Proof.
  intros H. unfold values. rewrite nth_indep with (d' := nth 0 l d) by (rewrite map_length, seq_length; lia).
  rewrite (map_nth (fun i => nth i l d)), seq_nth by lia. reflexivity.
Qed.
Lemma values_upto (l : list T) k a b : b <= k <= length l -> values d (values d l 0 k) a b = values d l a b.
Proof.
  intros H. unfold values at 1 3. apply map_ext_in. intros i Hi. apply in_seq in Hi. apply nth_values. lia.
Qed.
Lemma values_length (l : list T) a b : length (values d l a b) = b - a.
Proof. unfold values. rewrite map_length. apply seq_length. Qed.
Lemma bind_ok (A B : Type) (r : result A) (g : A -> result B) y : bind r g = Ok y -> exists x, r = Ok x /\ g x = Ok y.
Proof. destruct r as [x|]; [|discriminate]. intro H. now exists x. Qed.
Lemma eachP (A B : Type) (f : A -> result B) l r : each f l = Ok r -> Forall2 (fun x y => f x = Ok y) l r.
Proof.
  revert r. induction l as [|x l IH]; cbn; intros r H; [injection H as <-; constructor|].
  destruct (f x) eqn:E; [|discriminate]. cbn [bind] in H. destruct (each f l) eqn:E2; [|discriminate]. injection H as <-.
  constructor; auto.
Qed.
Lemma each_map (A B : Type) (f : A -> result B) g l r : each f l = Ok r -> (forall x y, In x l -> f x = Ok y -> y = g x) -> r = map g l.
Proof.
  intros H G. apply eachP in H. induction H as [|x y l r E _ IH]; [reflexivity|]. cbn. f_equal.
  - apply G; [now left|exact E].
  - apply IH. intros a b Ia. apply G. now right.
Qed.
Arguments each_map [A B f] g [l r] _ _.
Lemma each_columns (g : list T -> list T) (cs : list (list T)) il r : each (fun i => let! c := pick i cs in Ok (g c)) il = Ok r ->
  exists cols, Forall2 (fun i c => pick i cs = Ok c) il cols /\ r = map g cols.
Proof.
  intro H. apply eachP in H. induction H as [|i y il r E _ [cols [F ->]]]; [exists []; now split|].
  apply bind_ok in E. destruct E as [c [E [= <-]]]. exists (c :: cols). split; [now constructor|reflexivity].
Qed.
Arguments each_columns [g cs il r] _.
Lemma pickP (A : Type) i (l : list A) x : pick i l = Ok x -> chosen l i x.
Proof.
  unfold pick, chosen. destruct (nth_error _ _) as [y|] eqn:E; [|discriminate]. destruct (Z.leb_spec (- Z.of_nat (length l)) i); [|discriminate].
  intros [= <-]. destruct (Z.leb_spec 0 i); eexists; (split; [exact E|lia]).
Qed.

Lemma pick_chosen (A : Type) i (l : list A) x : chosen l i x -> pick i l = Ok x.
Proof.
  intros [j [Hj Hi]]. unfold pick. assert (L : j < length l) by (apply nth_error_Some; congruence).
  replace (Z.to_nat (if (0 <=? i)%Z then i else (Z.of_nat (length l) + i)%Z)) with j by (destruct (Z.leb_spec 0 i); lia).
  rewrite Hj, (proj2 (Z.leb_le _ _)); [reflexivity|lia].
Qed.
Lemma activeP k (fc : list T) act : active above k fc = Ok act -> k = Z.of_nat (length fc) \/ (k < 0)%Z /\ fc = [].
Proof.
  unfold active. destruct (Nat.eqb_spec (Z.to_nat k) (length fc)); [|discriminate]. intros _.
  destruct (Z.leb_spec 0 k); [left; lia|right]. split; [assumption|]. destruct fc; [reflexivity|cbn in *; lia].
Qed.
Lemma active_in k fc act : active above k fc = Ok act -> forall i, In i act <-> (0 <= i < Z.of_nat (length fc))%Z /\ above (nth (Z.to_nat i) fc d) = true.
Proof.
  unfold active. destruct (Nat.eqb _ _); [|discriminate]. intros [= <-] i.
  rewrite in_map_iff. split.
  - intros [[z v] [<- H]]. apply filter_In in H. destruct H as [H A]. cbn in A.
    apply (In_nth _ _ (0%Z, d)) in H. destruct H as [j [Hj E]]. rewrite combine_length, map_length, seq_length, Nat.min_id in Hj.
    rewrite combine_nth in E by now rewrite map_length, seq_length. injection E as <- <-.
    rewrite (nth_indep _ 0%Z (Z.of_nat 0)) in * by (rewrite map_length, seq_length; lia).
    rewrite map_nth, seq_nth by lia. cbn [fst snd]. rewrite Nat2Z.id. cbn. split; [lia|exact A].
  - intros [H A]. exists (i, nth (Z.to_nat i) fc d). split; [reflexivity|]. apply filter_In. split; [|exact A].
    assert (E : nth (Z.to_nat i) (combine (map Z.of_nat (seq 0 (length fc))) fc) (Z.of_nat 0, d) = (i, nth (Z.to_nat i) fc d)).
    { rewrite combine_nth by now rewrite map_length, seq_length. rewrite map_nth, seq_nth by lia. f_equal. lia. }
    rewrite <- E. apply nth_In. rewrite combine_length, map_length, seq_length. lia.
Qed.
Lemma active_sorted k fc act : active above k fc = Ok act -> StronglySorted Z.lt act.
Proof.
  unfold active. destruct (Nat.eqb _ _); [|discriminate]. intros [= <-]. generalize 0 at 1. clear.
  induction fc as [|v fc IH]; intros a; [constructor|]. cbn [length seq map combine filter].
  assert (R : StronglySorted Z.lt (map fst (filter (fun p : Z * T => above (snd p)) (combine (map Z.of_nat (seq (S a) (length fc))) fc)))) by apply IH.
  cbn [snd]. destruct (above v); [|exact R]. cbn [map fst]. constructor; [exact R|].
  apply Forall_forall. intros z H. apply in_map_iff in H. destruct H as [[y w] [<- H]]. apply filter_In in H. destruct H as [H _].
  apply in_combine_l in H. apply in_map_iff in H. destruct H as [j [<- H]]. apply in_seq in H. cbn. lia.
Qed.

Lemma slices_gap (x : list Z) (jump : Z) sl : StronglySorted Z.lt x -> index_slices x jump = Ok sl ->
  forall s s', In s sl -> In s' sl -> (snd s < fst s')%Z -> (jump < fst s' - snd s)%Z.
Proof.
  intros So E s s' Hs Hs' Hlt. destruct x as [|a0 t]; [discriminate|].
  destruct (@C38_slices (a0 :: t) jump) as [gs [E' [Ec [Hn [_ Hg]]]]]; [discriminate|]. rewrite E in E'. injection E' as ->.
  rewrite <- Ec in So. apply in_map_iff in Hs. destruct Hs as [g [<- G]]. apply in_map_iff in Hs'. destruct Hs' as [h [<- H]]. cbn in *.
  assert (hd_in : forall q, In q gs -> In (hd 0%Z q) q). { intros q Hq. specialize (Hn q Hq). destruct q; [congruence|now left]. }
  assert (last_in : forall q, In q gs -> In (last q 0%Z) q).
  { intros q Hq. destruct (exists_last (Hn q Hq)) as [u [z ->]]. rewrite last_last. apply in_or_app. right. now left. }
  assert (sg := sorted_concat _ So). assert (le : forall q, In q gs -> (hd 0 q <= last q 0)%Z).
  { intros q Hq. apply (sorted_bounds (sg q Hq) (Hn q Hq)). now apply hd_in. }
  destruct (in_split _ _ G) as [u [r ->]]. rewrite concat_app in So. cbn in So.
  destruct (sorted_app _ _ So) as [_ [S2 S3]]. destruct (sorted_app _ _ S2) as [_ [S4 S5]].
  apply in_app_or in H. destruct H as [H|[<-|H]].
  - exfalso. assert (hd 0 h < last g 0)%Z; [|lia]. apply S3.
    + apply in_concat. exists h. split; [assumption|]. apply hd_in, in_or_app. now left.
    + apply in_or_app. left. now apply last_in.
  - specialize (le g G). lia.
  - destruct r as [|h0 r]; [destruct H|]. assert (L := Hg u g h0 r eq_refl). destruct H as [<-|H]; [exact L|].
    cbn in S4. destruct (sorted_app _ _ S4) as [_ [_ S6]]. assert (hd 0 h0 < hd 0 h)%Z; [|lia]. apply S6.
    + apply hd_in, in_or_app. right. right. now left.
    + apply in_concat. exists h. split; [assumption|]. apply hd_in, in_or_app. right. right. now right.
Qed.

(** [i] is the index of an active value among the first [k] ones of [fc] *)
Definition active_at (fc : list T) (k i : nat) : Prop := i < k /\ above (nth i fc d) = true.

(** Between fit and picture: the first [k] times, data, embeddings and forcing values, where [k] is num_plot or, by default, the
    number of embeddings; and events [sl], each from an active index to an active index, that contain each active index exactly
    once. An event is drawn red up to, but without, its last index. *)
Theorem C65_curves f m num_plot il ifc jump sw p : shapes f m -> plot_summary above (Some f) num_plot il ifc jump sw = Ok p ->
  exists fc l0 k (sl : list (nat * nat)) cols rcs,
  chosen (ft_forc f) ifc fc /\ nth_error (ft_lin f) 0 = Some l0 /\ k <= m /\ (num_plot = Some (Z.of_nat k) \/ num_plot = None /\ k = m) /\
  p_series p = (values d (ft_time f) 0 k, values d (ft_data f) 0 k) /\
  p_linear p = (values d (ft_time f) 0 k, values d l0 0 k) /\
  p_forcing p = (values d (ft_time f) 0 k, values d fc 0 k) /\
  p_active p = map (fun s => (values d (ft_time f) (fst s) (snd s), values d fc (fst s) (snd s))) sl /\
  Forall2 (chosen (ft_lin f)) il cols /\ p_attractor p = map (fun c => values d c 0 k) cols /\
  p_red p = map (fun s => map (fun c => values d c (fst s) (snd s)) cols) sl /\
  Forall2 (chosen (ft_rec f)) il rcs /\ p_rec p = map (fun c => values d c 0 k) rcs /\
  (forall s, In s sl -> active_at fc k (fst s) /\ active_at fc k (snd s) /\ fst s <= snd s) /\
  (forall i, active_at fc k i -> exists! s, In s sl /\ fst s <= i <= snd s) /\
  (exists i, active_at fc k i) /\
  (forall s s', In s sl -> In s' sl -> snd s < fst s' -> (jump < Z.of_nat (fst s') - Z.of_nat (snd s))%Z) /\
  (jump = 1%Z -> forall i s, In s sl -> fst s <= i <= snd s -> active_at fc k i).
Proof.
  intros Sh H. unfold plot_summary in H.
  destruct (pick ifc (ft_forc f)) as [fc|] eqn:P1; [|discriminate]. cbn [bind] in H.
  apply pickP in P1. assert (P1' := P1). destruct P1 as [j [Hj Hi]]. assert (Lf : length fc = m) by (eapply sh_forc; [eassumption|eapply nth_error_In; eassumption]).
  set (kz := match num_plot with Some k => k | None => Z.of_nat (length fc) end) in H.
  destruct (active above kz (upto kz fc)) as [act|] eqn:A; [|discriminate]. cbn [bind] in H.
  destruct (index_slices act jump) as [slz|] eqn:S; [|discriminate]. cbn [bind] in H.
  assert (K : exists k, kz = Z.of_nat k /\ k <= m /\ length (upto kz fc) = k).
  { destruct (activeP _ _ A) as [E|[E E2]].
    - exists (length (upto kz fc)). split; [exact E|]. split; [|reflexivity]. unfold upto. rewrite firstn_length. lia.
    - rewrite E2 in A. unfold active in A. destruct (Nat.eqb _ _); [|discriminate]. injection A as <-. discriminate S. }
  destruct K as [k [Ek [Km Lk]]]. rewrite Ek in *. assert (Tm := sh_time Sh). assert (Dm := sh_data Sh).
  rewrite !upto_values in * by lia.
  unfold curve at 1 in H. rewrite !values_length, Nat.eqb_refl in H. cbn [bind] in H.
  destruct (pick 0 (ft_lin f)) as [l0|] eqn:P0; [|discriminate]. cbn [bind] in H. apply pickP in P0. destruct P0 as [j0 [H0 J0]].
  assert (j0 = 0) by lia. subst j0. assert (L0 : length l0 = m) by (eapply sh_lin; [eassumption|eapply nth_error_In; eassumption]).
  rewrite (upto_values l0) in H by lia. unfold curve at 1 in H. rewrite !values_length, Nat.eqb_refl in H. cbn [bind] in H.
  unfold curve at 1 in H. rewrite !values_length, Nat.eqb_refl in H. cbn [bind] in H.
  apply bind_ok in H. destruct H as [reds [R H]]. apply bind_ok in H. destruct H as [stars [St H]].
  apply bind_ok in H. destruct H as [att [At H]]. apply bind_ok in H. destruct H as [red [Re H]].
  apply bind_ok in H. destruct H as [rc [Rc H]]. injection H as <-. cbn.
  assert (So := active_sorted _ _ A). assert (Ain := active_in _ _ A). rewrite values_length, Nat.sub_0_r in Ain.
  assert (Ain' : forall i, In (Z.of_nat i) act <-> active_at fc k i).
  { intros i. rewrite Ain, Nat2Z.id. unfold active_at. split.
    - intros [B C]. split; [lia|]. rewrite nth_values in C by lia. exact C.
    - intros [B C]. split; [lia|]. rewrite nth_values by lia. exact C. }
  destruct (C38_slices_cover jump So S) as [C1 C2].
  assert (Pos : forall s, In s slz -> exists a b, s = (Z.of_nat a, Z.of_nat b) /\ a < k /\ b < k).
  { intros [a b] Hs. destruct (C2 _ Hs) as [B1 B2]. cbn in B1, B2. apply Ain in B1. apply Ain in B2.
    exists (Z.to_nat a), (Z.to_nat b). split; [f_equal; lia|lia]. }
  assert (Le : forall s, In s slz -> (fst s <= snd s)%Z).
  { intros s Hs. destruct (C2 _ Hs) as [B1 _]. destruct act as [|a0 t]; [destruct B1|].
    destruct (@C38_slices (a0 :: t) jump) as [gs [E' [Ec [Hn _]]]]; [discriminate|]. rewrite S in E'. injection E' as ->.
    apply in_map_iff in Hs. destruct Hs as [g [<- Hg]]. cbn. rewrite <- Ec in So.
    apply (sorted_bounds (sorted_concat _ So g Hg) (Hn g Hg)). destruct g; [now elim (Hn [] Hg)|now left]. }
  destruct (each_columns At) as [cols [Fc ->]]. destruct (each_columns Rc) as [rcs [Fr ->]].
  assert (Lc : forall c, In c cols -> length c = m).
  { intros c Hc. eapply sh_lin; [eassumption|]. clear - Fc Hc. induction Fc as [|i x li lc P _ IH]; [destruct Hc|].
    destruct Hc as [<-|Hc]; [|auto]. apply pickP in P. destruct P as [j [P _]]. eapply nth_error_In, P. }
  assert (Lr : forall c, In c rcs -> length c = m).
  { intros c Hc. eapply sh_rec; [eassumption|]. clear - Fr Hc. induction Fr as [|i x li lc P _ IH]; [destruct Hc|].
    destruct Hc as [<-|Hc]; [|auto]. apply pickP in P. destruct P as [j [P _]]. eapply nth_error_In, P. }
  exists fc, l0, k, (map (fun s => (Z.to_nat (fst s), Z.to_nat (snd s))) slz), cols, rcs.
  repeat match goal with |- _ /\ _ => split end; try reflexivity; try assumption.
  - unfold kz in Ek. destruct num_plot; [left; now f_equal|right; split; [reflexivity|lia]].
  - rewrite map_map. cbn [fst snd]. apply (each_map _ R). intros s y Hs. destruct (Pos _ Hs) as [a [b [-> [Ha Hb]]]]. cbn. rewrite !Nat2Z.id.
    assert (a <= b) by (specialize (Le _ Hs); cbn in Le; lia).
    rewrite !between_values by (rewrite ?values_length; lia). rewrite values_upto by lia.
    unfold curve. rewrite !values_length, Nat.eqb_refl. now intros [= <-].
  - clear - Fc. induction Fc; constructor; [now apply pickP|assumption].
  - apply map_ext_in. intros c Hc. apply upto_values. rewrite (Lc _ Hc). lia.
  - rewrite map_map. cbn [fst snd]. apply (each_map _ Re). intros s y Hs. destruct (Pos _ Hs) as [a [b [-> [Ha Hb]]]]. cbn [fst snd]. rewrite !Nat2Z.id.
    assert (a <= b) by (specialize (Le _ Hs); cbn in Le; lia). intro Hy. destruct (each_columns Hy) as [cols' [Fc' ->]].
    assert (cols' = cols) as ->.
    { clear - Fc Fc'. revert cols' Fc'. induction Fc as [|i x li lc P _ IH]; intros cols' F'; inversion F'; subst; [reflexivity|].
      f_equal; [congruence|auto]. }
    apply map_ext_in. intros c Hc. apply between_values. rewrite (Lc _ Hc). lia.
  - clear - Fr. induction Fr; constructor; [now apply pickP|assumption].
  - apply map_ext_in. intros c Hc. apply upto_values. rewrite (Lr _ Hc). lia.
  - intros s Hs. apply in_map_iff in Hs. destruct Hs as [z [<- Hz]]. destruct (Pos _ Hz) as [a [b [-> _]]]. cbn. rewrite !Nat2Z.id.
    destruct (C2 _ Hz) as [B1 B2]. cbn in B1, B2. split; [now apply Ain'|]. split; [now apply Ain'|].
    specialize (Le _ Hz). cbn in Le. lia.
  - intros i Hact. apply Ain' in Hact. destruct (C1 _ Hact) as [s [[Hs Hb] U]]. exists (Z.to_nat (fst s), Z.to_nat (snd s)). split.
    + split; [apply in_map_iff; exists s; auto|]. cbn. lia.
    + intros s' [Hs' Hb']. apply in_map_iff in Hs'. destruct Hs' as [z [<- Hz]]. destruct (Pos _ Hz) as [a [b [-> _]]]. cbn in *.
      rewrite !Nat2Z.id in *. rewrite (U (Z.of_nat a, Z.of_nat b)); [cbn; now rewrite !Nat2Z.id|]. split; [assumption|]. cbn. lia.
  - destruct act as [|z t]; [discriminate S|]. exists (Z.to_nat z). apply Ain'. rewrite Z2Nat.id; [now left|].
    assert (I0 : In z (z :: t)) by now left. apply Ain in I0. lia.
  - intros s s' Hs Hs'. apply in_map_iff in Hs. destruct Hs as [z [<- Hz]]. apply in_map_iff in Hs'. destruct Hs' as [z' [<- Hz']].
    destruct (Pos _ Hz) as [a [b [-> _]]]. destruct (Pos _ Hz') as [a' [b' [-> _]]]. cbn. rewrite !Nat2Z.id. intro Hlt.
    apply (@slices_gap _ _ _ So S _ _ Hz Hz'). cbn. lia.
  - intros -> i s Hs Hb. apply in_map_iff in Hs. destruct Hs as [z [<- Hz]]. destruct (Pos _ Hz) as [a [b [-> _]]]. cbn in Hb. rewrite !Nat2Z.id in Hb.
    apply Ain'. apply (C38_slices_exact So S). exists (Z.of_nat a, Z.of_nat b). split; [assumption|]. cbn. lia.
Qed.

(** With min_jump_dist 1: of the first [k] times, those drawn red are the ones of an active index that another active index follows.
    So the last index of an event is never red, and an event of one index is not drawn at all, although its forcing is above the
    threshold. *)
Theorem C65_red f m num_plot il ifc sw p : shapes f m -> plot_summary above (Some f) num_plot il ifc 1 sw = Ok p ->
  exists fc k (sl : list (nat * nat)), chosen (ft_forc f) ifc fc /\ (num_plot = Some (Z.of_nat k) \/ num_plot = None /\ k = m) /\
  p_active p = map (fun s => (values d (ft_time f) (fst s) (snd s), values d fc (fst s) (snd s))) sl /\
  forall i, (exists s, In s sl /\ fst s <= i < snd s) <-> active_at fc k i /\ active_at fc k (S i).
Proof.
  intros Sh H. destruct (C65_curves _ _ _ _ _ Sh H) as (fc & l0 & k & sl & cols & rcs & C1 & _ & _ & K & _ & _ & _ & A & _ & _ & _ & _ & _ & E & U & _ & G & X).
  exists fc, k, sl. split; [assumption|]. split; [assumption|]. split; [assumption|]. specialize (X eq_refl). intro i. split.
  - intros [s [Hs Hb]]. split; apply (X _ s Hs); lia.
  - intros [A1 A2]. destruct (U _ A1) as [s [[Hs Hb] _]]. exists s. split; [assumption|]. split; [lia|].
    destruct (Nat.lt_ge_cases i (snd s)) as [|Ge]; [assumption|exfalso]. destruct (U _ A2) as [s' [[Hs' Hb'] _]].
    destruct (U _ A1) as [s0 [_ U0]].
    assert (s <> s') by (intro; subst s'; lia). assert (Hi : ~ fst s' <= i).
    { intro Q. assert (s0 = s) by (apply U0; split; [assumption|lia]). assert (s0 = s') by (apply U0; split; [assumption|lia]). congruence. }
    assert (L : snd s < fst s') by lia. specialize (G _ _ Hs Hs' L). lia.
Qed.

(** Without an active index among those drawn there is no picture: IndexError. *)
Theorem C65_quiet_refuted f m num_plot il ifc jump sw fc k : shapes f m -> chosen (ft_forc f) ifc fc ->
  (num_plot = Some (Z.of_nat k) \/ num_plot = None /\ k = m) -> (forall i, ~ active_at fc k i) ->
  plot_summary above (Some f) num_plot il ifc jump sw = Err IndexError.
Proof.
  intros Sh C K N. unfold plot_summary. rewrite (pick_chosen C). cbn [bind].
  assert (Lf : length fc = m) by (destruct C as [j [Hj _]]; eapply sh_forc; [eassumption|eapply nth_error_In; eassumption]).
  assert (E : match num_plot with Some k => k | None => Z.of_nat (length fc) end = Z.of_nat k) by (destruct K as [->|[-> ->]]; [reflexivity|now rewrite Lf]).
  rewrite E. destruct (active above (Z.of_nat k) (upto (Z.of_nat k) fc)) as [act|] eqn:A.
  - cbn [bind]. destruct act as [|z t]; [reflexivity|]. exfalso. assert (I : In z (z :: t)) by now left.
    apply (active_in _ _ A) in I. destruct I as [I1 I2].
    destruct (Nat.le_gt_cases k (length fc)) as [Hk|Hk].
    + rewrite upto_values, values_length in * by assumption. apply (N (Z.to_nat z)). split; [lia|]. rewrite nth_values in I2 by lia. exact I2.
    + unfold upto in *. rewrite (proj2 (Z.leb_le _ _)), Nat2Z.id, firstn_all2 in * by lia. apply (N (Z.to_nat z)). split; [lia|assumption].
  - unfold active in A. destruct (Nat.eqb _ _); [discriminate|]. now injection A as <-.
Qed.
(** More time points than embeddings, or a negative number: IndexError. *)
Theorem C65_range_refuted f m n il ifc jump sw fc : shapes f m -> chosen (ft_forc f) ifc fc -> (n < 0 \/ Z.of_nat m < n)%Z ->
  plot_summary above (Some f) (Some n) il ifc jump sw = Err IndexError.
Proof.
  intros Sh C N. unfold plot_summary. rewrite (pick_chosen C). cbn [bind].
  assert (Lf : length fc = m) by (destruct C as [j [Hj _]]; eapply sh_forc; [eassumption|eapply nth_error_In; eassumption]).
  destruct (active above n (upto n fc)) as [act|] eqn:A.
  - cbn [bind]. destruct (activeP _ _ A) as [E|[E E2]].
    + unfold upto in E. rewrite firstn_length in E. lia.
    + rewrite E2 in A. unfold active in A. destruct (Nat.eqb _ _); [|discriminate]. injection A as <-. reflexivity.
  - unfold active in A. destruct (Nat.eqb _ _); [discriminate|]. now injection A as <-.
Qed.

(** The stars: before the first index that is not below [k], whatever follows it. *)
Theorem C65_stars f m num_plot il ifc jump l p k u v : shapes f m -> plot_summary above (Some f) num_plot il ifc jump (SwArray l) = Ok p ->
  (num_plot = Some (Z.of_nat k) \/ num_plot = None /\ k = m) -> l = u ++ v -> Forall (fun i => 0 <= i < Z.of_nat k)%Z u ->
  (forall x w, v = x :: w -> (Z.of_nat k <= x)%Z) -> p_stars p = Some (map (fun i => nth (Z.to_nat i) (ft_time f) d) u).
Proof.
  intros Sh H K -> Fu Hv. destruct (C65_curves _ _ _ _ _ Sh H) as (fc & l0 & k' & _ & _ & _ & C1 & _ & Km & K' & _).
  assert (k' = k) by (destruct K as [->|[-> ->]], K' as [E|[E E']]; try discriminate; [injection E; lia|assumption]). subst k'.
  unfold plot_summary in H. rewrite (pick_chosen C1) in H. cbn [bind] in H.
  assert (Lf : length fc = m) by (destruct C1 as [j [Hj _]]; eapply sh_forc; [eassumption|eapply nth_error_In; eassumption]).
  assert (E : match num_plot with Some k => k | None => Z.of_nat (length fc) end = Z.of_nat k) by (destruct K as [->|[-> ->]]; [reflexivity|now rewrite Lf]).
  rewrite E in H. do 7 (apply bind_ok in H; destruct H as [? [? H]]). apply bind_ok in H. destruct H as [st [St H]].
  do 3 (apply bind_ok in H; destruct H as [? [? H]]). injection H as <-. cbn [p_stars].
  assert (B : before_outside (Z.of_nat k) (u ++ v) = u).
  { clear - Fu Hv. induction Fu as [|x u Hx _ IH].
    - destruct v as [|x w]; [reflexivity|]. cbn. rewrite (proj2 (Z.leb_le _ _)); [reflexivity|eapply Hv; reflexivity].
    - cbn. rewrite (proj2 (Z.leb_gt _ _)) by lia. now f_equal. }
  rewrite B in St. apply bind_ok in St. destruct St as [t [St [= <-]]]. f_equal. apply (each_map _ St). intros i y Hi Py.
  rewrite Forall_forall in Fu. specialize (Fu _ Hi). assert (Tm := sh_time Sh). rewrite upto_values in Py by lia.
  apply pickP in Py. destruct Py as [j [Hj [[_ Ej]|[Ej _]]]]; [|lia]. assert (j = Z.to_nat i) by lia. subst j.
  apply nth_error_nth with (d := d) in Hj. rewrite nth_values in Hj by lia. now symmetry.
Qed.
(** In order: the stars are at the times of exactly the indexes below [k]. *)
Theorem C65_stars_sorted f m num_plot il ifc jump l p k : shapes f m -> plot_summary above (Some f) num_plot il ifc jump (SwArray l) = Ok p ->
  (num_plot = Some (Z.of_nat k) \/ num_plot = None /\ k = m) -> StronglySorted Z.le l -> Forall (fun i => 0 <= i)%Z l ->
  p_stars p = Some (map (fun i => nth (Z.to_nat i) (ft_time f) d) (filter (fun i => (i <? Z.of_nat k)%Z) l)).
Proof.
  intros Sh H K So Nn.
  assert (X : exists u v, l = u ++ v /\ filter (fun i => (i <? Z.of_nat k)%Z) l = u /\ Forall (fun i => 0 <= i < Z.of_nat k)%Z u /\
    (forall x w, v = x :: w -> (Z.of_nat k <= x)%Z)).
  { clear - So Nn. induction So as [|x l So IH Fx]; [exists [], []; repeat split; [constructor|discriminate]|].
    inversion Nn as [|? ? N1 N2]; subst. destruct (Z.ltb_spec x (Z.of_nat k)) as [Lt|Ge].
    - destruct (IH N2) as (u & v & -> & F & Fu & Hv). exists (x :: u), v. cbn. rewrite (proj2 (Z.ltb_lt _ _)) by assumption.
      rewrite F. repeat split; [|assumption]. constructor; [lia|assumption].
    - exists [], (x :: l). cbn. rewrite (proj2 (Z.ltb_ge _ _)) by assumption. repeat split; [|constructor|intros ? ? [= <- _]; assumption].
      rewrite Forall_forall in Fx. clear - Fx Ge. induction l as [|y l IH]; [reflexivity|]. cbn.
      assert (x <= y)%Z by (apply Fx; now left). rewrite (proj2 (Z.ltb_ge _ _)) by lia. apply IH. intros z Hz. apply Fx. now right. }
  destruct X as (u & v & E & F & Fu & Hv). rewrite F. eapply C65_stars; eassumption.
Qed.
(** A sequence that is not an array: TypeError where the same call without it draws; and no star without switches. *)
Theorem C65_list_refuted f m num_plot il ifc jump p : shapes f m -> plot_summary above (Some f) num_plot il ifc jump NoSwitch = Ok p ->
  plot_summary above (Some f) num_plot il ifc jump SwOther = Err TypeError /\ p_stars p = None.
Proof.
  intros Sh H. unfold plot_summary in *. do 8 (apply bind_ok in H; destruct H as [? [E H]]; rewrite E; cbn [bind]; clear E). cbn [bind] in H.
  split; [reflexivity|]. do 3 (apply bind_ok in H; destruct H as [? [_ H]]). now injection H as <-.
Qed.
(** Before fit: ValueError. *)
Theorem C65_unfitted num_plot il ifc jump sw : plot_summary above (None : option (fitted T)) num_plot il ifc jump sw = Err ValueError.
Proof. reflexivity. Qed.
End C65.
Print Assumptions C65_curves.
Print Assumptions C65_red.
Print Assumptions C65_quiet_refuted.
Print Assumptions C65_range_refuted.
Print Assumptions C65_stars.
Print Assumptions C65_stars_sorted.
Print Assumptions C65_list_refuted.
Print Assumptions C65_unfitted.

Definition example_fit : fitted Z := Fitted [0; 10; 20; 30; 40; 50; 60; 70; 80]%Z [5; 6; 7; 8; 9; 8; 7; 6; 5]%Z
  [[1; 2; 3; 4; 5; 6; 7]; [7; 6; 5; 4; 3; 2; 1]]%Z [[0; 9; 9; 9; 0; 9; 0]]%Z [[1; 2; 3; 4; 5; 6; 6]; [7; 6; 5; 4; 3; 2; 2]]%Z.
(** Indexes 1, 2, 3 and 5 are active. 3 is not drawn red, 5 is not drawn. Of the switches 1, 8, 2, which are not in order, 2 is lost. *)
Example C65_case : shapes example_fit 7 /\
  plot_summary (fun v => (8 <? v)%Z) (Some example_fit) None [0; 1]%Z 0 1 (SwArray [1; 8; 2]%Z) = Ok (Picture
    ([0; 10; 20; 30; 40; 50; 60], [5; 6; 7; 8; 9; 8; 7])%Z ([0; 10; 20; 30; 40; 50; 60], [1; 2; 3; 4; 5; 6; 7])%Z
    ([0; 10; 20; 30; 40; 50; 60], [0; 9; 9; 9; 0; 9; 0])%Z [([10; 20], [9; 9]); ([], [])]%Z (Some [10]%Z)
    [[1; 2; 3; 4; 5; 6; 7]; [7; 6; 5; 4; 3; 2; 1]]%Z [[[2; 3]; [6; 5]]; [[]; []]]%Z [[1; 2; 3; 4; 5; 6; 6]; [7; 6; 5; 4; 3; 2; 2]]%Z) /\
  plot_summary (fun v => (9 <? v)%Z) (Some example_fit) None [0; 1]%Z 0 1 NoSwitch = Err IndexError.
Proof.
  split; [|split; reflexivity]. constructor; cbn; try lia; try discriminate; intros c H; repeat (destruct H as [<-|H]; [reflexivity|]); destruct H.
Qed.
