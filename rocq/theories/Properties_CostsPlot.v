(** * C66: the plots of COSTS *)
From Coq Require Import List ZArith QArith Qabs Qminmax String Bool Arith Lia Lqa.
From Verif Require Import Py Model_CostsPlot Spec_CostsPlot.
Import ListNotations.
Set Implicit Arguments.
Open Scope nat_scope.
Open Scope string_scope.

Lemma fold_shift (l : list Q) x : (fold_right Qplus x l == fold_right Qplus 0 l + x)%Q.
Proof. induction l as [|y l IH]; cbn; [ring|]. rewrite IH. ring. Qed.
Lemma qsum_fold n f : (qsum n f == fold_right Qplus 0 (map f (seq 0 n)))%Q.
Proof.
  induction n as [|n IH]; [reflexivity|]. rewrite seq_S, map_app, fold_right_app. cbn. rewrite fold_shift, IH. ring.
Qed.
Lemma qsum_first n f : (qsum (S n) f == f 0%nat + qsum n (fun k => f (S k)))%Q.
Proof. induction n as [|n IH]; [cbn; ring|]. cbn [qsum] in *. rewrite IH. ring. Qed.
Lemma total_spec s i t v : is_total s i t v -> (total s i t == v)%Q.
Proof. unfold is_total, total. intros ->. apply qsum_fold. Qed.
Lemma total_split s i t : 0 < bands s -> (total s i t == xr s 0 i t + high s i t)%Q.
Proof.
  unfold total, high. intros H. destruct (bands s) as [|b]; [lia|]. rewrite qsum_first. now rewrite Nat.sub_succ, Nat.sub_0_r.
Qed.
Lemma wrapP i n j : wrap i n = Ok j -> j < n /\ (Z.of_nat j = i \/ (i < 0)%Z /\ Z.of_nat j = (Z.of_nat n + i)%Z).
Proof.
  unfold wrap. destruct (Z.leb_spec 0 i), (Z.ltb_spec i (Z.of_nat n)), (Z.leb_spec (- Z.of_nat n) i), (Z.ltb_spec i 0); cbn; try discriminate;
    intros [= <-]; lia.
Qed.
Lemma mean_spec n f : 0 < n -> is_mean n f (qsum n f / inject_Z (Z.of_nat n))%Q.
Proof.
  intros H. unfold is_mean. rewrite <- qsum_fold. field. unfold Qeq. cbn. lia.
Qed.

(** plot_time_series: every curve is about the chosen point. The data and the reconstruction are drawn without the time mean of the
    data, so their distance is the error of the reconstruction. The low frequency band is drawn without the mean too, the other
    bands as they are; high and low add up to the reconstruction. The distance of the two curves of the second panel is the error. *)
Theorem C66_series s idx data r p : 0 < times s -> 0 < bands s -> plot_time_series s idx data r = Ok p ->
  exists i mean, i < points s /\ (Z.of_nat i = idx \/ (idx < 0)%Z /\ Z.of_nat i = (Z.of_nat (points s) + idx)%Z) /\
  is_mean (times s) (data i) mean /\ List.length (ts_bands p) = bands s /\
  forall t tot, is_total s i t tot ->
    (ts_black p t == data i t - mean /\ ts_red p t == tot - mean /\ ts_last_black p t == data i t - mean /\
     ts_last_low p t == xr s 0 i t - mean /\ ts_last_high p t + ts_last_low p t == tot - mean /\
     ts_second p t - ts_last_low p t == data i t - tot)%Q /\
    (forall n c, nth_error (ts_bands p) n = Some c -> n < bands s /\ (c t == if Nat.eqb n 0 then xr s 0%nat i t - mean else xr s n i t)%Q).
Proof.
  intros Ht Hb H. unfold plot_time_series in H. destruct (wrap idx (points s)) as [i|] eqn:W; [|discriminate]. cbn [bind] in H.
  apply wrapP in W. destruct W as [W1 W2]. injection H as <-.
  exists i, (qsum (times s) (data i) / inject_Z (Z.of_nat (times s)))%Q. split; [assumption|]. split; [assumption|].
  split; [now apply mean_spec|]. cbn. split; [now rewrite map_length, seq_length|]. intros t tot Tt. apply total_spec in Tt.
  assert (Sp := total_split s i t Hb). rewrite Tt in Sp. split.
  - repeat split; try reflexivity; rewrite ?Tt, ?Sp; try reflexivity; ring.
  - intros n c Hn. assert (Ln : n < bands s).
    { assert (L : n < List.length (map (fun n0 t0 => if Nat.eqb n0 0 then (xr s n0 i t0 - qsum (times s) (data i) / inject_Z (Z.of_nat (times s)))%Q
        else xr s n0 i t0) (seq 0 (bands s)))) by (apply nth_error_Some; congruence). rewrite map_length, seq_length in L. exact L. }
    split; [assumption|]. rewrite nth_error_map in Hn. rewrite (nth_error_nth' _ 0) in Hn by now rewrite seq_length.
    rewrite seq_nth in Hn by assumption. cbn in Hn. injection Hn as <-. destruct n; reflexivity.
Qed.
(** The curve called residual is not the error: the mean is subtracted from the data but not from the reconstruction. It is the error
    exactly if the mean of the data is 0; for an exact reconstruction it is minus the mean, not 0. *)
Theorem C66_residual_refuted s idx data p : 0 < times s -> plot_time_series s idx data true = Ok p ->
  exists i mean f, i < points s /\ is_mean (times s) (data i) mean /\ ts_residual p = Some f /\
  forall t tot, is_total s i t tot -> (f t == data i t - tot - mean)%Q /\ ((f t == data i t - tot)%Q <-> (mean == 0)%Q) /\
    ((tot == data i t)%Q -> (f t == - mean)%Q).
Proof.
  intros Ht H. unfold plot_time_series in H. destruct (wrap idx (points s)) as [i|] eqn:W; [|discriminate]. cbn [bind] in H.
  apply wrapP in W. destruct W as [W1 _]. injection H as <-.
  exists i, (qsum (times s) (data i) / inject_Z (Z.of_nat (times s)))%Q. eexists. split; [assumption|]. split; [now apply mean_spec|].
  split; [reflexivity|]. intros t tot Tt. apply total_spec in Tt. cbv beta.
  generalize (qsum (times s) (data i) / inject_Z (Z.of_nat (times s)))%Q as m. intro m. rewrite Tt.
  split; [ring|]. split; [split; intro E; lra|]. intro E. rewrite E. ring.
Qed.
(** Without the flag no residual is drawn; an index outside raises IndexError. *)
Theorem C66_series_index s idx data r : (idx < - Z.of_nat (points s) \/ Z.of_nat (points s) <= idx)%Z -> plot_time_series s idx data r = Err IndexError.
Proof.
  intros H. unfold plot_time_series, wrap.
  destruct (Z.leb_spec 0 idx), (Z.ltb_spec idx (Z.of_nat (points s))), (Z.leb_spec (- Z.of_nat (points s)) idx), (Z.ltb_spec idx 0); cbn; try reflexivity; lia.
Qed.
Theorem C66_no_residual s idx data p : plot_time_series s idx data false = Ok p -> ts_residual p = None.
Proof. unfold plot_time_series. destruct (wrap idx (points s)); [|discriminate]. cbn. now intros [= <-]. Qed.

(** ** Limits *)
Lemma amax_ge l q : amax l = Ok q -> (0 <= q)%Q /\ (forall x, List.In x l -> (Qabs x <= q)%Q) /\ ((q == 0)%Q \/ exists x, List.In x l /\ (Qabs x == q)%Q).
Proof.
  unfold amax. destruct l as [|x0 l0]; [discriminate|]. generalize (x0 :: l0) as l. clear. intros l [= <-].
  induction l as [|x l [I1 [I2 I3]]]; cbn; [split; [lra|split; [intros x []|left; reflexivity]]|].
  split; [eapply Qle_trans; [apply I1|apply Q.le_max_r]|]. split.
  - intros y [<-|Hy]; [apply Q.le_max_l|]. eapply Qle_trans; [now apply I2|apply Q.le_max_r].
  - destruct (Q.max_spec (Qabs x) (fold_right (fun x y => Qmax (Qabs x) y) 0%Q l)) as [[L E]|[L E]].
    + destruct I3 as [I3|[y [Hy Ey]]]; [left; now rewrite E|right; exists y; split; [now right|now rewrite E]].
    + right. exists x. split; [now left|now rewrite E].
Qed.
Lemma in_cells n t m x : List.In x (cells n t m) <-> exists i j, i < n /\ j < t /\ m i j = x.
Proof.
  unfold cells. rewrite in_flat_map. split.
  - intros [i [Hi H]]. apply in_seq in Hi. apply in_map_iff in H. destruct H as [j [<- Hj]]. apply in_seq in Hj. exists i, j. repeat split; lia.
  - intros (i & j & Hi & Hj & <-). exists i. split; [apply in_seq; lia|]. apply in_map_iff. exists j. split; [reflexivity|apply in_seq; lia].
Qed.
Lemma get_app k d e : get k (d ++ e)%list = match get k d with Some v => Some v | None => get k e end.
Proof. induction d as [|[k' v] d IH]; [reflexivity|]. cbn. destruct (String.eqb k k'); auto. Qed.
Lemma get_default k k' v d : get k (default k' v d) = match get k d with Some w => Some w | None => if String.eqb k k' then Some v else None end.
Proof.
  unfold default. destruct (get k' d) eqn:E.
  - destruct (get k d) eqn:F; [reflexivity|]. destruct (String.eqb_spec k k'); [subst; congruence|reflexivity].
  - rewrite get_app. destruct (get k d); reflexivity.
Qed.
Lemma limits_get a cm d d' : limits a cm d = Ok d' -> exists q, a = Ok q /\
  forall k, get k d' = match get k (match d with Some d => d | None => [] end) with Some w => Some w | None =>
    if String.eqb k "vmin" then Some (Num (- q)) else if String.eqb k "vmax" then Some (Num q) else if String.eqb k "cmap" then Some (Name cm) else None end.
Proof.
  unfold limits. destruct a as [q|]; [|discriminate]. cbn [bind]. intros [= <-]. exists q. split; [reflexivity|]. intro k.
  rewrite !get_default. destruct (get k _); [reflexivity|]. destruct (String.eqb k "vmin"), (String.eqb k "vmax"); reflexivity.
Qed.
Lemma limits_full a cm d d' : limits a cm d = Ok d' -> forall a' cm' d'', limits a' cm' (Some d') = Ok d'' -> d'' = d'.
Proof.
  intros H a' cm' d'' H'. destruct (limits_get _ _ _ H) as [q [_ G]]. unfold limits in H'. destruct a' as [q'|]; [|discriminate]. cbn [bind] in H'.
  assert (D : forall k v, (k = "vmin" \/ k = "vmax" \/ k = "cmap") -> default k v d' = d').
  { intros k v Hk. unfold default. rewrite G. destruct (get k _); [reflexivity|]. destruct Hk as [->|[->| ->]]; reflexivity. }
  rewrite (D "vmin"), (D "vmax"), (D "cmap") in H' by tauto. now injection H' as <-.
Qed.
Lemma limits_tight n t m cm d' : limits (amax (cells n t m)) cm None = Ok d' -> tight n t m d'.
Proof.
  intros H. destruct (limits_get _ _ _ H) as [q [A G]]. exists q. rewrite !G. cbn. split; [reflexivity|]. split; [reflexivity|].
  destruct (amax_ge _ A) as [_ [B C]]. split.
  - intros i j Hi Hj. apply B, in_cells. exists i, j. auto.
  - destruct C as [C|[x [Hx Ex]]]; [now left|right]. apply in_cells in Hx. destruct Hx as (i & j & Hi & Hj & <-). exists i, j. auto.
Qed.

(** plot_scale_separation: data, low band, sum of the others, and on demand the error of the reconstruction; the default limits of
    the data and of the high frequencies are tight. *)
Theorem C66_separation s data r pk hk o : plot_scale_separation s data r pk hk = Ok o -> exists pl hl hi rest,
  dr_panels o = Panel data pl :: Panel (xr s 0) pl :: Panel hi hl :: rest /\
  (forall i t tot, is_total s i t tot -> (xr s 0 i t + hi i t == tot)%Q) /\
  (r = false -> rest = []) /\
  (r = true -> exists f, rest = [Panel f hl] /\ forall i t tot, is_total s i t tot -> (f i t == data i t - tot)%Q) /\
  (pk = None -> tight (points s) (times s) data pl) /\ (hk = None -> tight (points s) (times s) hi hl).
Proof.
  unfold plot_scale_separation. destruct (Nat.eqb_spec (bands s) 0) as [|Hb]; [discriminate|].
  destruct (limits _ _ pk) as [pl|] eqn:P; [|discriminate]. cbn [bind]. destruct (limits _ _ hk) as [hl|] eqn:Hl; [|discriminate]. cbn [bind].
  intros [= <-]. exists pl, hl, (high s). eexists. cbn [dr_panels]. split; [reflexivity|].
  assert (Sp : forall i t tot, is_total s i t tot -> (xr s 0 i t + high s i t == tot)%Q).
  { intros i t tot Tt. apply total_spec in Tt. rewrite <- Tt, total_split by lia. reflexivity. }
  split; [exact Sp|]. split; [now intros ->|]. split.
  - intros ->. eexists. split; [reflexivity|]. intros i t tot Tt. cbn. rewrite <- (Sp _ _ _ Tt). ring.
  - split; intros ->; now apply limits_tight in P || now apply limits_tight in Hl.
Qed.
(** plot_reconstructions: data, every band in its panel, and on demand the error; the data and the low band share limits. *)
Theorem C66_bands s data r pk hk o : plot_reconstructions s data r pk hk = Ok o -> exists pl hl rest,
  dr_panels o = (Panel data pl :: map (fun n => Panel (xr s n) (if Nat.eqb n 0 then pl else hl)) (seq 0 (bands s)) ++ rest)%list /\
  (r = false -> rest = []) /\
  (r = true -> exists f, rest = [Panel f hl] /\ forall i t tot, is_total s i t tot -> (f i t == data i t - tot)%Q) /\
  (pk = None -> tight (points s) (times s) data pl) /\
  (hk = None -> exists q, get "vmin" hl = Some (Num (- q)) /\ get "vmax" hl = Some (Num q) /\
     forall n i t, 0 < n < bands s -> i < points s -> t < times s -> (Qabs (xr s n i t) <= q)%Q).
Proof.
  unfold plot_reconstructions. destruct (limits _ _ pk) as [pl|] eqn:P; [|discriminate]. cbn [bind].
  destruct (limits _ _ hk) as [hl|] eqn:Hl; [|discriminate]. cbn [bind]. intros [= <-]. exists pl, hl. eexists. cbn [dr_panels].
  split; [reflexivity|]. split; [now intros ->|]. split; [|split].
  - intros ->. eexists. split; [reflexivity|]. intros i t tot Tt. cbn. apply total_spec in Tt. now rewrite Tt.
  - intros ->. now apply limits_tight in P.
  - intros ->. destruct (limits_get _ _ _ Hl) as [q [A G]]. exists q. rewrite !G. cbn. split; [reflexivity|]. split; [reflexivity|].
    destruct (amax_ge _ A) as [_ [B _]]. intros n i t Hn Hi Ht. apply B, in_flat_map. exists n. split; [apply in_seq; lia|].
    apply in_cells. exists i, t. auto.
Qed.
(** One band only: plot_reconstructions raises ValueError, even with given limits, where plot_scale_separation draws. *)
Theorem C66_one_band_refuted s data r pk hk : bands s = 1 -> plot_reconstructions s data r pk hk = Err ValueError.
Proof.
  intros H. unfold plot_reconstructions. rewrite H. cbn [Nat.sub seq flat_map]. unfold limits at 2. cbn [amax bind].
  unfold limits. destruct (cells _ _ _) as [|x l]; reflexivity.
Qed.
Theorem C66_one_band_separation s data r pk hk : bands s = 1 -> 0 < points s -> 0 < times s -> exists o, plot_scale_separation s data r pk hk = Ok o.
Proof.
  intros H Hp Ht. unfold plot_scale_separation. rewrite H. cbn [Nat.eqb].
  assert (N : forall m, exists q, amax (cells (points s) (times s) m) = Ok q).
  { intro m. assert (I : List.In (m 0 0) (cells (points s) (times s) m)) by (apply in_cells; exists 0, 0; auto).
    unfold amax. destruct (cells _ _ m); [destruct I|]. eexists. reflexivity. }
  destruct (N data) as [q1 ->]. destruct (N (high s)) as [q2 ->]. cbn. eexists. reflexivity.
Qed.

(** The options given are used and stay; the missing limits are written into the dictionary of the caller. *)
Theorem C66_given s data r d hk o : plot_scale_separation s data r (Some d) hk = Ok o -> exists d' q, dr_plot o = Some d' /\
  (forall k v, get k d = Some v -> get k d' = Some v) /\ (exists rest, dr_panels o = Panel data d' :: rest) /\
  amax (cells (points s) (times s) data) = Ok q /\ (get "vmin" d = None -> get "vmin" d' = Some (Num (- q))) /\
  (get "vmax" d = None -> get "vmax" d' = Some (Num q)).
Proof.
  unfold plot_scale_separation. destruct (Nat.eqb_spec (bands s) 0) as [|Hb]; [discriminate|].
  destruct (limits _ _ (Some d)) as [pl|] eqn:P; [|discriminate]. cbn [bind]. destruct (limits _ _ hk) as [hl|] eqn:Hl; [|discriminate]. cbn [bind].
  intros [= <-]. destruct (limits_get _ _ _ P) as [q [A G]]. exists pl, q. cbn. split; [reflexivity|].
  split; [intros k v E; now rewrite G, E|]. split; [eexists; reflexivity|]. split; [assumption|]. split; intro E; now rewrite G, E.
Qed.
Theorem C66_given_hf s data r pk d o : plot_scale_separation s data r pk (Some d) = Ok o -> exists d' hi q, dr_hf o = Some d' /\
  (forall k v, get k d = Some v -> get k d' = Some v) /\ nth_error (dr_panels o) 2 = Some (Panel hi d') /\
  amax (cells (points s) (times s) hi) = Ok q /\ (get "vmin" d = None -> get "vmin" d' = Some (Num (- q))) /\
  (get "vmax" d = None -> get "vmax" d' = Some (Num q)).
Proof.
  unfold plot_scale_separation. destruct (Nat.eqb_spec (bands s) 0) as [|Hb]; [discriminate|].
  destruct (limits _ _ pk) as [pl|] eqn:P; [|discriminate]. cbn [bind]. destruct (limits _ _ (Some d)) as [hl|] eqn:Hl; [|discriminate]. cbn [bind].
  intros [= <-]. destruct (limits_get _ _ _ Hl) as [q [A G]]. exists hl, (high s), q. cbn. split; [reflexivity|].
  split; [intros k v E; now rewrite G, E|]. split; [reflexivity|]. split; [assumption|]. split; intro E; now rewrite G, E.
Qed.
(** So a dictionary used a second time, for other data, brings the limits of the first data along. *)
Theorem C66_reuse_refuted s data r d hk o s2 data2 r2 hk2 o2 d' : plot_scale_separation s data r (Some d) hk = Ok o -> dr_plot o = Some d' ->
  plot_scale_separation s2 data2 r2 (Some d') hk2 = Ok o2 -> exists rest, dr_panels o2 = Panel data2 d' :: rest.
Proof.
  unfold plot_scale_separation. destruct (Nat.eqb (bands s) 0); [discriminate|].
  destruct (limits _ _ (Some d)) as [pl|] eqn:P; [|discriminate]. cbn [bind]. destruct (limits _ _ hk) as [hl|]; [|discriminate]. cbn [bind].
  intros [= <-] [= <-]. destruct (Nat.eqb (bands s2) 0); [discriminate|].
  destruct (limits _ _ (Some pl)) as [pl2|] eqn:P2; [|discriminate]. cbn [bind]. destruct (limits _ _ hk2) as [hl2|]; [|discriminate]. cbn [bind].
  intros [= <-]. rewrite (limits_full _ _ _ P _ _ P2). eexists. reflexivity.
Qed.

(** plot_error: the percentage by which the reconstruction exceeds the data. *)
Theorem C66_percent s data i t tot : is_total s i t tot -> ~ (data i t == 0)%Q -> (data i t * (1 + percent s data i t / 100) == tot)%Q.
Proof. intros Tt Hd. apply total_spec in Tt. unfold percent. rewrite Tt. field. exact Hd. Qed.

(** periods: in order, 2 pi over the absolute frequency of each entry that is not in the lowest band; infinite for frequency 0.
    Before fit ValueError, before clustering TypeError. *)
Theorem C66_periods tau w c r : periods tau (Some w) (Some c) = Ok r -> exists l, 
  l = filter (fun p => negb (Nat.eqb (snd p) 0)) (combine (List.concat w) (List.concat c)) /\ List.length r = List.length l /\
  forall n im cl, nth_error l n = Some (im, cl) -> exists v, nth_error r n = Some v /\
    match v with None => (im == 0)%Q | Some p => ~ (im == 0)%Q /\ (p * Qabs im == tau)%Q end.
Proof.
  unfold periods. intros [= <-]. exists (filter (fun p => Nat.ltb 0 (snd p)) (combine (List.concat w) (List.concat c))). split; [|split].
  - apply filter_ext. intros [im n]. cbn. now destruct n.
  - apply map_length.
  - intros n im cl H. rewrite nth_error_map, H. cbn. eexists. split; [reflexivity|]. destruct (Qeq_bool im 0) eqn:E.
    + now apply Qeq_bool_iff.
    + assert (N : ~ (im == 0)%Q) by (intro F; apply Qeq_bool_iff in F; congruence). split; [assumption|]. field.
      intro F. apply N. destruct im as [a b]. unfold Qeq, Qabs in *. cbn in *. lia.
Qed.
Theorem C66_periods_errors tau w c : periods tau None c = Err ValueError /\ periods tau (Some w) None = Err TypeError.
Proof. split; reflexivity. Qed.
(** plot_omega_time_series: one series for each band; the eigenvalue of a window and mode is drawn, transformed, in the series of its
    band and in no other. *)
Lemma nth_concat (T : Type) rank (w : list (list T)) : (forall row, List.In row w -> List.length row = rank) ->
  forall k j row, nth_error w k = Some row -> j < rank -> nth_error (List.concat w) (k * rank + j) = nth_error row j.
Proof.
  intros H. induction w as [|r w IH]; intros k j row Hk Hj; [now destruct k|].
  assert (Lr : List.length r = rank) by (apply H; now left). destruct k as [|k].
  - injection Hk as <-. cbn. apply nth_error_app1. lia.
  - cbn [List.concat]. rewrite nth_error_app2 by lia. replace (S k * rank + j - List.length r) with (k * rank + j) by lia.
    apply IH; [intros; apply H; now right|assumption|assumption].
Qed.
Theorem C66_omega (T : Type) (tr : T -> Q) nb rank (w : list (list T)) cls : (forall row, List.In row w -> List.length row = rank) ->
  List.length (omega_series tr nb rank w cls) = nb /\
  forall k j row x, nth_error w k = Some row -> nth_error row j = Some x ->
  forall b f, nth_error (omega_series tr nb rank w cls) b = Some f -> f k j = if Nat.eqb (cls k j) b then Some (tr x) else None.
Proof.
  intros H. unfold omega_series. split; [now rewrite map_length, seq_length|]. intros k j row x Hk Hx b f Hf.
  assert (Lb : b < nb).
  { assert (L : b < List.length (map (fun b k j => if Nat.eqb (cls k j) b then nth_error (map tr (List.concat w)) (k * rank + j) else None) (seq 0 nb)))
      by (apply nth_error_Some; congruence). now rewrite map_length, seq_length in L. }
  rewrite nth_error_map, (nth_error_nth' _ 0), seq_nth in Hf by now rewrite ?seq_length. cbn in Hf. injection Hf as <-.
  assert (Hj : j < rank). { rewrite <- (H row) by (eapply nth_error_In; eassumption). apply nth_error_Some. congruence. }
  rewrite nth_error_map, (@nth_concat T rank w H k j row Hk Hj), Hx. reflexivity.
Qed.
(** plot_omega_histogram: the eigenvalue of each window and mode is counted once, with the transformation of the time series; one line
    per centroid, in the colour of its band in the time series. *)
Lemma color_some (K : Type) (colors : list K) n : colors <> [] -> exists c, band_color colors n = Ok c /\ nth_error colors (n mod List.length colors) = Some c.
Proof.
  intros H. unfold band_color. assert (L : List.length colors <> 0) by now destruct colors. apply Nat.eqb_neq in L as L'. rewrite L'.
  assert (B := Nat.mod_upper_bound n _ L). destruct (nth_error colors (n mod List.length colors)) as [c|] eqn:E; [now exists c|]. apply nth_error_None in E. lia.
Qed.
Lemma lines_spec (K : Type) (colors : list K) cent : colors <> [] -> forall n, exists l, centroid_lines colors n cent = Ok l /\ map fst l = cent /\
  forall b q c, nth_error l b = Some (q, c) -> band_color colors (n + b) = Ok c.
Proof.
  intros H. induction cent as [|x cent IH]; intros n; cbn [centroid_lines].
  - exists []. repeat split. now intros [|b].
  - destruct (color_some n H) as (c & Ec & _). rewrite Ec. destruct (IH (S n)) as (l & -> & M & B). cbn. exists ((x, c) :: l). cbn. rewrite M. repeat split.
    intros [|b] q d; cbn.
    + intros [= <- <-]. rewrite Nat.add_0_r. exact Ec.
    + intros Hb. rewrite Nat.add_succ_r. exact (B b q d Hb).
Qed.
Theorem C66_histogram (T K : Type) (tr : T -> Q) (colors : list K) rank (w : list (list T)) cent :
  (forall row, List.In row w -> List.length row = rank) -> colors <> [] ->
  exists vals l, omega_histogram tr colors w cent = Ok (vals, l) /\ List.length vals = List.length w * rank /\
  (forall k j row x, nth_error w k = Some row -> nth_error row j = Some x -> nth_error vals (k * rank + j) = Some (tr x)) /\
  map fst l = cent /\ forall b q c, nth_error l b = Some (q, c) -> band_color colors b = Ok c.
Proof.
  intros H N. unfold omega_histogram. destruct (lines_spec cent N 0) as (l & -> & M & B). cbn [bind]. exists (map tr (List.concat w)), l.
  split; [reflexivity|]. split; [|split; [|split; [exact M|exact B]]].
  - rewrite map_length. clear - H. induction w as [|r w IH]; [reflexivity|]. cbn. rewrite app_length, IH by (intros; apply H; now right).
    rewrite (H r) by now left. reflexivity.
  - intros k j row x Hk Hx. assert (Hj : j < rank). { rewrite <- (H row) by (eapply nth_error_In; eassumption). apply nth_error_Some. congruence. }
    rewrite nth_error_map, (@nth_concat T rank w H k j row Hk Hj), Hx. reflexivity.
Qed.
(** Bands have different colours as long as there are enough; after that the colours repeat. *)
Theorem C66_colors (K : Type) (colors : list K) : NoDup colors -> colors <> [] ->
  (forall a b, a < List.length colors -> b < List.length colors -> band_color colors a = band_color colors b -> a = b) /\
  forall a, band_color colors (a + List.length colors) = band_color colors a.
Proof.
  intros D N. assert (L : List.length colors <> 0) by now destruct colors. split.
  - intros a b Ha Hb E. destruct (color_some a N) as (c & Ea & Na). destruct (color_some b N) as (d & Eb & Nb).
    assert (c = d) by congruence. subst d. rewrite Nat.mod_small in Na, Nb by assumption.
    eapply (proj1 (NoDup_nth_error colors) D a b Ha). congruence.
  - intros a. unfold band_color. rewrite <- (Nat.mul_1_l (List.length colors)) at 2. now rewrite Nat.mod_add.
Qed.
Print Assumptions C66_series.
Print Assumptions C66_residual_refuted.
Print Assumptions C66_series_index.
Print Assumptions C66_no_residual.
Print Assumptions C66_separation.
Print Assumptions C66_bands.
Print Assumptions C66_one_band_refuted.
Print Assumptions C66_one_band_separation.
Print Assumptions C66_given.
Print Assumptions C66_given_hf.
Print Assumptions C66_reuse_refuted.
Print Assumptions C66_percent.
Print Assumptions C66_periods.
Print Assumptions C66_periods_errors.
Print Assumptions C66_omega.
Print Assumptions C66_histogram.
Print Assumptions C66_colors.

(** Two bands, one point, two times: an exact reconstruction of the data 4, 6 has the residual -5, -5. *)
Definition example_sep : sep := Sep 2 1 2 (fun n i t => if Nat.eqb n 0 then 5%Q else if Nat.eqb t 0 then (-1)%Q else 1%Q).
Definition example_data (i t : nat) : Q := if Nat.eqb t 0 then 4%Q else 6%Q.
Example C66_case : (forall t, t < 2 -> is_total example_sep 0 t (example_data 0 t)) /\
  exists p f, plot_time_series example_sep (-1) example_data true = Ok p /\ ts_residual p = Some f /\
  (f 0%nat == -5 /\ f 1%nat == -5 /\ ts_black p 0%nat == -1 /\ ts_red p 0%nat == -1)%Q.
Proof.
  split; [intros [|[|t]] H; [reflexivity|reflexivity|lia]|]. eexists. eexists. split; [reflexivity|]. split; [reflexivity|]. repeat split.
Qed.
(** The data 4, 6 and then 40, 60 drawn with one dictionary: the limits stay -6 and 6. *)
Example C66_reuse_case : exists o d' o2, plot_scale_separation example_sep example_data true (Some []) None = Ok o /\ dr_plot o = Some d' /\
  plot_scale_separation example_sep (fun i t => 10 * example_data i t)%Q true (Some d') None = Ok o2 /\
  get "vmax" d' = Some (Num 6) /\ dr_plot o2 = Some d'.
Proof. eexists. eexists. eexists. repeat split. Qed.
Example C66_periods_case : periods 6 (Some [[1; -2]; [0; 3]]%Q) (Some [[0; 1]; [1; 2]]) = Ok [Some (6 / 2); None; Some (6 / 3)]%Q.
Proof. reflexivity. Qed.
Example C66_omega_case : map (fun f => (f 0 1, f 1 0)) (omega_series (fun x => x) 2 2 [[1; 2]; [3; 4]]%Q (fun k j => (k + j) mod 2)) =
  [(None, None); (Some 2%Q, Some 3%Q)].
Proof. reflexivity. Qed.
Example C66_histogram_case : omega_histogram (fun x => x) ["blue"; "red"] [[1; 2]; [3; 4]]%Q [1; 3; 4]%Q =
  Ok ([1; 2; 3; 4], [(1, "blue"); (3, "red"); (4, "blue")])%Q.
Proof. reflexivity. Qed.
