(** * C67: the plots of one level of mrCOSTS *)
From Coq Require Import List ZArith QArith String Bool Arith Lia.
From Verif Require Import Py Model_CostsPlot Spec_CostsPlot Properties_CostsPlot Model_MrCostsPlot Spec_MrCostsPlot.
Import ListNotations.
Set Implicit Arguments.
Open Scope nat_scope.

Lemma wrap_nat k n : k < n -> wrap (Z.of_nat k) n = Ok k.
Proof.
  intros H. unfold wrap. rewrite (proj2 (Z.leb_le _ _)), (proj2 (Z.ltb_lt _ _)) by lia. cbn [andb]. now rewrite Nat2Z.id.
Qed.
Lemma wrap_out i n : (i < - Z.of_nat n \/ Z.of_nat n <= i)%Z -> wrap i n = Err IndexError.
Proof.
  intros H. unfold wrap. destruct (Z.leb_spec 0 i), (Z.ltb_spec i (Z.of_nat n)), (Z.leb_spec (- Z.of_nat n) i), (Z.ltb_spec i 0); cbn; try reflexivity; lia.
Qed.
Lemma at_nat levels k l : nth_error levels k = Some l -> at_level levels (Z.of_nat k) = Ok l.
Proof.
  intros H. unfold at_level. rewrite wrap_nat by (apply nth_error_Some; congruence). cbn [bind]. now rewrite H.
Qed.
Lemma low_ok levels n t l inc : fitted_levels levels n t -> List.In l levels -> low l inc = Ok (Array n t (xr (l inc) 0)).
Proof.
  intros F Hl. destruct (F l inc Hl) as [B [<- <-]]. unfold low. destruct (Nat.eqb_spec (bands (l inc)) 0); [lia|reflexivity].
Qed.
Lemma input_later levels n t k l : fitted_levels levels n t -> nth_error levels k = Some l ->
  plot_input levels n t (Z.of_nat (S k)) None = Ok (Array n t (xr (l true) 0)).
Proof.
  intros F H. unfold plot_input. rewrite (proj2 (Z.eqb_neq _ _)), (proj2 (Z.ltb_lt _ _)) by lia.
  replace (Z.of_nat (S k) - 1)%Z with (Z.of_nat k) by lia. rewrite (at_nat _ _ H). cbn [bind].
  rewrite (@low_ok _ _ _ _ true F) by (eapply nth_error_In; eassumption). cbn. now rewrite !Nat.eqb_refl.
Qed.

(** Without data, and if the fit used the window means (its default), a level after the first is drawn with exactly the data it was
    fitted on: the lowest band of the level before. *)
Theorem C67_input levels n t k data : fitted_levels levels n t -> S k < List.length levels -> exists x,
  plot_input levels n t (Z.of_nat (S k)) None = Ok x /\ fit_input levels true data (S k) = Ok x /\ a_rows x = n /\ a_cols x = t /\
  forall l, nth_error levels k = Some l -> a_val x = xr (l true) 0.
Proof.
  intros F H. destruct (nth_error levels k) as [l|] eqn:E; [|apply nth_error_None in E; lia].
  exists (Array n t (xr (l true) 0)). split; [now apply input_later|]. cbn. rewrite E.
  rewrite (@low_ok _ _ _ _ true F) by (eapply nth_error_In; eassumption). repeat split. intros l' [= <-]. reflexivity.
Qed.
(** If costs_recon_kwargs turned the means off in the fit, it is not: the plot still takes the means. The two agree exactly if the
    lowest band of the level before does not depend on them. *)
Theorem C67_means_refuted levels n t k l data : fitted_levels levels n t -> nth_error levels k = Some l -> exists x y,
  plot_input levels n t (Z.of_nat (S k)) None = Ok x /\ fit_input levels false data (S k) = Ok y /\
  ((forall i j, a_val x i j == a_val y i j)%Q <-> (forall i j, xr (l true) 0%nat i j == xr (l false) 0%nat i j)%Q).
Proof.
  intros F E. exists (Array n t (xr (l true) 0)), (Array n t (xr (l false) 0)). split; [now apply input_later|]. cbn. rewrite E.
  rewrite (@low_ok _ _ _ _ false F) by (eapply nth_error_In; eassumption). split; [reflexivity|]. reflexivity.
Qed.
(** Data of the shape stored by fit is used as it is, for every level; other shapes raise ValueError. *)
Theorem C67_given levels n t i x : (a_rows x = n /\ a_cols x = t -> plot_input levels n t i (Some x) = Ok x) /\
  (a_rows x <> n \/ a_cols x <> t -> plot_input levels n t i (Some x) = Err ValueError /\
     forall pk inc, local_separation levels n t i (Some x) pk inc = Err ValueError).
Proof.
  unfold local_separation, plot_input. cbn [bind]. destruct (Nat.eqb_spec (a_rows x) n), (Nat.eqb_spec (a_cols x) t); cbn; split; intros H; try reflexivity;
    try (split; reflexivity); lia.
Qed.
Theorem C67_shape levels n t i data pk inc o : local_separation levels n t i data pk inc = Ok o ->
  exists x, plot_input levels n t i data = Ok x /\ a_rows x = n /\ a_cols x = t /\ (forall d, data = Some d -> x = d).
Proof.
  unfold local_separation. destruct (plot_input levels n t i data) as [x|] eqn:P; [|discriminate]. intros _. exists x. split; [reflexivity|].
  unfold plot_input in P. destruct data as [d|].
  - cbn [bind] in P. destruct (Nat.eqb_spec (a_rows d) n), (Nat.eqb_spec (a_cols d) t); try discriminate P. injection P as <-.
    repeat split; try assumption. now intros ? [= <-].
  - destruct (if (i =? 0)%Z then _ else _) as [y|]; [|discriminate]. cbn [bind] in P.
    destruct (Nat.eqb_spec (a_rows y) n), (Nat.eqb_spec (a_cols y) t); try discriminate P. injection P as <-. repeat split; try assumption. discriminate.
Qed.
(** Without data: the first level raises ValueError, a negative one UnboundLocalError (although with data it counts from the end),
    one beyond the last IndexError. *)
Theorem C67_levels levels n t i : fitted_levels levels n t ->
  (i = 0%Z -> plot_input levels n t i None = Err ValueError) /\
  (i < 0 -> plot_input levels n t i None = Err UnboundLocalError)%Z /\
  (forall pk inc, (Z.of_nat (List.length levels) <= i)%Z -> i <> 0%Z -> local_separation levels n t i None pk inc = Err IndexError).
Proof.
  intros F. split; [now intros ->|]. split.
  - intros H. unfold plot_input. rewrite (proj2 (Z.eqb_neq _ _)), (proj2 (Z.ltb_ge _ _)) by lia. reflexivity.
  - intros pk inc H N. unfold local_separation. destruct (Z.eq_dec i (Z.of_nat (List.length levels))) as [->|Ne].
    + destruct (List.length levels) as [|k] eqn:L; [lia|]. destruct (nth_error levels k) as [l|] eqn:E; [|apply nth_error_None in E; lia].
      rewrite (@input_later _ _ _ _ _ F E). cbn [bind]. unfold at_level. rewrite wrap_out by lia. reflexivity.
    + unfold plot_input. rewrite (proj2 (Z.eqb_neq _ _)), (proj2 (Z.ltb_lt _ _)) by lia. unfold at_level at 1. rewrite wrap_out by lia. reflexivity.
Qed.
(** A negative level with data: the level counted from the end. *)
Theorem C67_negative levels n t k x pk inc : a_rows x = n -> a_cols x = t -> k < List.length levels ->
  local_separation levels n t (Z.of_nat k - Z.of_nat (List.length levels)) (Some x) pk inc = local_separation levels n t (Z.of_nat k) (Some x) pk inc.
Proof.
  intros <- <- H. unfold local_separation. rewrite !(proj1 (C67_given _ _ _ _ _)) by now split. cbn [bind]. unfold at_level. rewrite (wrap_nat H).
  unfold wrap. destruct (Z.leb_spec 0 (Z.of_nat k - Z.of_nat (List.length levels))); [lia|]. cbn [andb].
  rewrite (proj2 (Z.leb_le _ _)), (proj2 (Z.ltb_lt _ _)) by lia. cbn [andb]. replace (Z.to_nat _) with k by lia. reflexivity.
Qed.
(** What is drawn: the input of the level, its lowest band and the rest, which add up to its reconstruction. *)
Theorem C67_separation levels n t k l data pk inc o : nth_error levels k = Some l ->
  local_separation levels n t (Z.of_nat k) data pk inc = Ok o -> exists x pl hl hi, plot_input levels n t (Z.of_nat k) data = Ok x /\
  dr_panels o = [Panel (a_val x) pl; Panel (xr (l inc) 0) pl; Panel hi hl] /\
  forall i j tot, is_total (l inc) i j tot -> (xr (l inc) 0 i j + hi i j == tot)%Q.
Proof.
  intros E. unfold local_separation. destruct (plot_input _ _ _ _ _) as [x|]; [|discriminate]. cbn [bind]. rewrite (at_nat _ _ E). cbn [bind].
  intros H. destruct (C66_separation _ _ _ _ _ H) as (pl & hl & hi & rest & P & S & R & _). exists x, pl, hl, hi. split; [reflexivity|].
  split; [rewrite P, R; reflexivity|assumption].
Qed.
Theorem C67_reconstructions levels n t k l data r pk hk inc o : nth_error levels k = Some l ->
  local_reconstructions levels n t (Z.of_nat k) data r pk hk inc = Ok o -> exists x pl hl rest, plot_input levels n t (Z.of_nat k) data = Ok x /\
  dr_panels o = (Panel (a_val x) pl :: map (fun b => Panel (xr (l inc) b) (if Nat.eqb b 0 then pl else hl)) (seq 0 (bands (l inc))) ++ rest)%list /\
  (r = false -> rest = []) /\
  (r = true -> exists f, rest = [Panel f hl] /\ forall i j tot, is_total (l inc) i j tot -> (f i j == a_val x i j - tot)%Q).
Proof.
  intros E. unfold local_reconstructions. destruct (plot_input _ _ _ _ _) as [x|]; [|discriminate]. cbn [bind]. rewrite (at_nat _ _ E). cbn [bind].
  intros H. destruct (C66_bands _ _ _ _ _ H) as (pl & hl & rest & P & R1 & R2 & _). exists x, pl, hl, rest. split; [reflexivity|]. auto.
Qed.
Theorem C67_series levels n t k l space data inc p : fitted_levels levels n t -> 0 < t -> nth_error levels k = Some l ->
  local_series levels n t space (Z.of_nat k) data inc = Ok p -> exists x i mean, plot_input levels n t (Z.of_nat k) data = Ok x /\ i < n /\
  (Z.of_nat i = space \/ (space < 0)%Z /\ Z.of_nat i = (Z.of_nat n + space)%Z) /\ is_mean t (a_val x i) mean /\ ts_residual p = None /\
  forall j tot, is_total (l inc) i j tot -> (ts_black p j == a_val x i j - mean /\ ts_red p j == tot - mean)%Q.
Proof.
  intros F Ht E. unfold local_series. destruct (plot_input _ _ _ _ _) as [x|]; [|discriminate]. cbn [bind]. rewrite (at_nat _ _ E). cbn [bind].
  intros H. destruct (F l inc (nth_error_In _ _ E)) as [B [Pn Tn]]. assert (R := C66_no_residual _ _ _ H).
  assert (Ht' : 0 < times (l inc)) by now rewrite Tn.
  destruct (@C66_series _ _ _ _ _ Ht' B H) as (i & mean & Hi & Hs & M & _ & C).
  exists x, i, mean. rewrite Pn in Hi, Hs. rewrite Tn in M. split; [reflexivity|]. split; [assumption|]. split; [assumption|]. split; [assumption|].
  split; [assumption|]. intros j tot T. destruct (C j tot T) as [[C1 [C2 _]] _]. now split.
Qed.
(** The error drawn: by how many percent the reconstruction of the level exceeds its input. *)
Theorem C67_error levels n t k l data inc f : nth_error levels k = Some l -> local_error levels n t (Z.of_nat k) data inc = Ok f ->
  exists x, plot_input levels n t (Z.of_nat k) data = Ok x /\
  forall i j tot, is_total (l inc) i j tot -> ~ (a_val x i j == 0)%Q -> (a_val x i j * (1 + f i j / 100) == tot)%Q.
Proof.
  intros E. unfold local_error. destruct (plot_input _ _ _ _ _) as [x|]; [|discriminate]. cbn [bind]. rewrite (at_nat _ _ E). cbn [bind].
  intros [= <-]. exists x. split; [reflexivity|]. intros i j tot T N. now apply C66_percent.
Qed.
Print Assumptions C67_input.
Print Assumptions C67_means_refuted.
Print Assumptions C67_given.
Print Assumptions C67_shape.
Print Assumptions C67_levels.
Print Assumptions C67_negative.
Print Assumptions C67_separation.
Print Assumptions C67_reconstructions.
Print Assumptions C67_series.
Print Assumptions C67_error.

(** Two levels of one point and two times; the means of the first are 5. Fitted without means, the second level got 0, 0; the plot shows 5, 5. *)
Definition example_level (inc : bool) : sep := Sep 2 1 2 (fun b i t => if Nat.eqb b 0 then (if inc then 5%Q else 0%Q) else 1%Q).
Example C67_case : fitted_levels [example_level; example_level] 1 2 /\
  exists x y, plot_input [example_level; example_level] 1 2 1 None = Ok x /\ a_val x 0 0 = 5%Q /\
    fit_input [example_level; example_level] false (Array 1 2 (fun _ _ => 6%Q)) 1 = Ok y /\ a_val y 0 0 = 0%Q /\
    exists o, local_separation [example_level; example_level] 1 2 1 None None true = Ok o.
Proof.
  split; [intros l inc [<-|[<-|[]]]; cbn; auto|]. eexists. eexists. split; [reflexivity|]. split; [reflexivity|]. split; [reflexivity|].
  split; [reflexivity|]. eexists. reflexivity.
Qed.
