(** * C68: frequencies and growth rates *)
From Coq Require Import List Reals Lra Lia.
From Verif Require Import Py Model_Freq Spec_Freq.
Import ListNotations.
Set Implicit Arguments.
Local Open Scope R_scope.

Lemma modulus_polar r a : 0 <= r -> modulus (polar r a) = r.
Proof.
  intros H. unfold modulus, polar. cbn. replace (r * cos a * (r * cos a) + r * sin a * (r * sin a)) with (r * r).
  - now apply sqrt_square.
  - assert (E := sin2_cos2 a). unfold Rsqr in E. nra.
Qed.
Lemma polar_mul r a s b : cmul (polar r a) (polar s b) = polar (r * s) (a + b).
Proof. unfold cmul, polar. cbn. rewrite cos_plus, sin_plus. f_equal; ring. Qed.
Lemma polar_pow r a k : cpow (polar r a) k = polar (r ^ k) (INR k * a).
Proof.
  induction k as [|k IH]; [cbn; unfold polar; rewrite Rmult_0_l, cos_0, sin_0; f_equal; ring|].
  cbn [cpow]. rewrite IH, polar_mul. rewrite S_INR. f_equal. ring.
Qed.
Lemma angle_unique r a s b : 0 < r -> 0 < s -> - PI < a <= PI -> - PI < b <= PI -> polar r a = polar s b -> r = s /\ a = b.
Proof.
  intros Hr Hs Ha Hb E. assert (Er : r = s) by (rewrite <- (@modulus_polar r a), <- (@modulus_polar s b) by lra; now rewrite E). split; [exact Er|].
  subst s. unfold polar in E. injection E as E1 E2. apply Rmult_eq_reg_l in E1; [|lra]. apply Rmult_eq_reg_l in E2; [|lra].
  assert (C : cos (a - b) = 1). { rewrite cos_minus, E1, E2. assert (S := sin2_cos2 b). unfold Rsqr in S. lra. }
  replace (a - b) with (2 * ((a - b) / 2)) in C by field. rewrite cos_2a_sin in C.
  assert (Z : sin ((a - b) / 2) = 0) by nra. destruct (Rtotal_order a b) as [L|[L|L]]; [|exact L|]; exfalso.
  - assert (0 < sin (- ((a - b) / 2))) by (apply sin_gt_0; lra). rewrite sin_neg in *. lra.
  - assert (0 < sin ((a - b) / 2)) by (apply sin_gt_0; lra). lra.
Qed.
Lemma map_nth_error_inv (A B : Type) (f : A -> B) l n x y : nth_error l n = Some x -> nth_error (map f l) n = Some y -> y = f x.
Proof. intros H. rewrite nth_error_map, H. cbn. now intros [= <-]. Qed.
Lemma log_pos l z : is_log l z -> modulus z = exp (fst l).
Proof. intros [-> _]. apply modulus_polar. apply Rlt_le, exp_pos. Qed.

(** The frequency [f] of an eigenvalue, which is not 0, in a complex array: after any number of steps the phase of the mode is the one of an oscillation
    with frequency [f]; and [f] is at most half the sampling rate. *)
Theorem C68_frequency lg e h fs : 0 < h -> (forall z, In z e -> is_log (lg z) z) -> frequency lg true (Some e) (Some h) = Ok fs ->
  length fs = length e /\
  forall n z f, nth_error e n = Some z -> nth_error fs n = Some f ->
  (forall k, cpow z k = polar (modulus z ^ k) (2 * PI * f * (INR k * h))) /\ - (1 / (2 * h)) < f <= 1 / (2 * h).
Proof.
  intros Hh L H. injection H as <-. split; [apply map_length|]. intros n z f Hz Hf. apply (map_nth_error_inv _ _ _ Hz) in Hf.
  specialize (L z (nth_error_In _ _ Hz)). assert (M := log_pos L). destruct L as [E B]. assert (P := PI_RGT_0). subst f. split.
  - intros k. rewrite M. rewrite E at 1. rewrite polar_pow. f_equal. field. split; lra.
  - assert (X : forall a, a / (2 * PI * h) = (a / PI) * (1 / (2 * h))) by (intro; field; lra). rewrite X.
    assert (Q : 0 < 1 / (2 * h)) by (apply Rdiv_lt_0_compat; lra).
    assert (B1 : -1 < snd (lg z) / PI) by (apply Rmult_lt_reg_r with PI; [lra|]; unfold Rdiv; rewrite Rmult_assoc, Rinv_l by lra; lra).
    assert (B2 : snd (lg z) / PI <= 1) by (apply Rmult_le_reg_r with PI; [lra|]; unfold Rdiv; rewrite Rmult_assoc, Rinv_l by lra; lra).
    split; nra.
Qed.
(** A mode that oscillates with frequency [f0]: the frequency reported is [f0] exactly if [f0] is in the band of the sampling rate. *)
Theorem C68_alias lg h r f0 fs : 0 < h -> 0 < r -> is_log (lg (polar r (2 * PI * f0 * h))) (polar r (2 * PI * f0 * h)) ->
  frequency lg true (Some [polar r (2 * PI * f0 * h)]) (Some h) = Ok fs -> (fs = [f0] <-> - (1 / (2 * h)) < f0 <= 1 / (2 * h)).
Proof.
  intros Hh Hr L H. set (z := polar r (2 * PI * f0 * h)) in *. assert (P := PI_RGT_0). split.
  - intros ->. destruct (@C68_frequency lg [z] h [f0] Hh) as [_ C]; [intros ? [<-|[]]; exact L|exact H|]. exact (proj2 (C 0%nat z f0 eq_refl eq_refl)).
  - intros B. injection H as <-. destruct L as [E B']. f_equal.
    assert (R : - PI < 2 * PI * f0 * h <= PI).
    { assert (X : 1 / (2 * h) * (2 * h) = 1) by (field; lra). assert (-1 < f0 * (2 * h) <= 1) by (split; nra). split; nra. }
    destruct (angle_unique Hr (exp_pos _) R B' E) as [_ <-]. field. lra.
Qed.

(** Real arrays (real data, all eigenvalues real): positive eigenvalues get their frequency 0, which is right. *)
Theorem C68_real lg e h fs : 0 < h -> (forall z, In z e -> 0 < fst z /\ snd z = 0) -> frequency lg false (Some e) (Some h) = Ok fs ->
  length fs = length e /\
  forall n z f, nth_error e n = Some z -> nth_error fs n = Some f ->
  f = 0 /\ forall k, cpow z k = polar (modulus z ^ k) (2 * PI * f * (INR k * h)).
Proof.
  intros Hh L H. injection H as <-. split; [apply map_length|]. intros n z f Hz Hf. apply (map_nth_error_inv _ _ _ Hz) in Hf.
  destruct (L z (nth_error_In _ _ Hz)) as [Hx H0]. assert (P := PI_RGT_0). unfold log_imag in Hf.
  assert (F : f = 0) by (rewrite Hf; unfold Rdiv; ring). split; [exact F|]. intros k. rewrite F.
  destruct z as [x y]. cbn in Hx, H0. subst y. assert (Pz : (x, 0) = polar x 0) by (unfold polar; rewrite cos_0, sin_0; f_equal; ring).
  rewrite Pz, modulus_polar, polar_pow by lra. f_equal. ring.
Qed.
(** A negative eigenvalue changes its sign at each step, with half the sampling rate: reported in a complex array, but in a real array
    the frequency is 0. *)
Theorem C68_real_refuted lg x h : 0 < h -> x < 0 -> is_log (lg (x, 0)) (x, 0) ->
  (forall k, cpow (x, 0) k = polar (modulus (x, 0) ^ k) (2 * PI * (1 / (2 * h)) * (INR k * h))) /\
  frequency lg true (Some [(x, 0)]) (Some h) = Ok [1 / (2 * h)] /\ frequency lg false (Some [(x, 0)]) (Some h) = Ok [0].
Proof.
  intros Hh Hx L. assert (P := PI_RGT_0). assert (Pz : (x, 0) = polar (- x) (2 * PI * (1 / (2 * h)) * h)).
  { replace (2 * PI * (1 / (2 * h)) * h) with PI by (field; lra). unfold polar. rewrite cos_PI, sin_PI. f_equal; ring. }
  split; [|split].
  - intros k. rewrite Pz, modulus_polar, polar_pow by lra. f_equal. ring.
  - destruct (frequency lg true (Some [(x, 0)]) (Some h)) as [fs|] eqn:E; [|discriminate E]. f_equal. rewrite Pz in E, L.
    apply (@C68_alias lg h (- x) (1 / (2 * h)) fs Hh); [lra|exact L|exact E|]. assert (0 < 1 / (2 * h)) by (apply Rdiv_lt_0_compat; lra). lra.
  - cbn. do 2 f_equal. unfold Rdiv. ring.
Qed.

(** growth_rate of the discrete models: the modulus of a mode after [k] steps is not exp(g k dt), unless the modulus of the eigenvalue
    happens to be the exponential of its real part. *)
Theorem C68_growth e h gs : 0 < h -> growth_rate (Some e) (Some h) = Ok gs -> length gs = length e /\
  forall n z g, nth_error e n = Some z -> nth_error gs n = Some g ->
  g * h = fst z /\ (modulus z = exp (g * h) <-> modulus z = exp (fst z)).
Proof.
  intros Hh H. injection H as <-. split; [apply map_length|]. intros n z g Hz Hg. apply (map_nth_error_inv _ _ _ Hz) in Hg. subst g.
  assert (E : fst z / h * h = fst z) by (field; lra). rewrite E. split; reflexivity.
Qed.
(** For a positive real eigenvalue it never is the growth rate; in particular a mode that decays has a positive one. *)
Theorem C68_growth_refuted x h gs : 0 < h -> 0 < x -> growth_rate (Some [(x, 0)]) (Some h) = Ok gs -> exists g, gs = [g] /\ 0 < g /\
  (forall k, (0 < k)%nat -> modulus (cpow (x, 0) k) < exp (g * (INR k * h))) /\
  (x < 1 -> forall k, modulus (cpow (x, 0) (S k)) < modulus (cpow (x, 0) k)).
Proof.
  intros Hh Hx H. injection H as <-. exists (x / h). split; [reflexivity|]. split; [now apply Rdiv_lt_0_compat|].
  assert (Pz : (x, 0) = polar x 0) by (unfold polar; rewrite cos_0, sin_0; f_equal; ring).
  assert (M : forall k, modulus (cpow (x, 0) k) = x ^ k).
  { intro k. rewrite Pz, polar_pow. apply modulus_polar. apply pow_le. lra. }
  split.
  - intros k Hk. rewrite M. replace (x / h * (INR k * h)) with (INR k * x) by (field; lra).
    assert (E : exp (INR k * x) = exp x ^ k).
    { clear. induction k as [|k IH]; [cbn; now rewrite Rmult_0_l, exp_0|]. rewrite S_INR, Rmult_plus_distr_r, exp_plus, IH, Rmult_1_l. cbn. ring. }
    rewrite E. assert (L : x < exp x) by (assert (G := exp_ineq1 x); assert (1 + x < exp x) by (apply G; lra); lra).
    clear - Hx L Hk. induction k as [|k IH]; [lia|]. cbn. destruct k as [|k]; [cbn; lra|].
    assert (0 < x ^ S k) by (apply pow_lt; lra). assert (x ^ S k < exp x ^ S k) by (apply IH; lia). nra.
  - intros L k. rewrite !M. cbn. assert (0 < x ^ k) by now apply pow_lt. nra.
Qed.
(** The continuous models of VarProDMD: both are exact. *)
Theorem C68_varpro e fs gs : varpro_frequency (Some e) = Ok fs -> varpro_growth_rate (Some e) = Ok gs ->
  length fs = length e /\ length gs = length e /\
  forall n z f g, nth_error e n = Some z -> nth_error fs n = Some f -> nth_error gs n = Some g ->
  forall t, cexp_t z t = polar (exp (g * t)) (2 * PI * f * t) /\ modulus (cexp_t z t) = exp (g * t).
Proof.
  intros H1 H2. injection H1 as <-. injection H2 as <-. split; [apply map_length|]. split; [apply map_length|].
  intros n z f g Hz Hf Hg t. apply (map_nth_error_inv _ _ _ Hz) in Hf. apply (map_nth_error_inv _ _ _ Hz) in Hg. subst. assert (P := PI_RGT_0). split.
  - unfold cexp_t. f_equal. field. lra.
  - apply modulus_polar, Rlt_le, exp_pos.
Qed.
(** Right after fit the frequencies count turns per snapshot, at most a half; BOPDMD and OptDMD raise RuntimeError, even after fit. *)
Theorem C68_no_time_refuted lg c m e :
  (m = BOPDMD \/ m = OptDMD -> frequency lg c (Some e) (fitted_dt m) = Err RuntimeError /\ growth_rate (Some e) (fitted_dt m) = Err RuntimeError) /\
  (m <> BOPDMD -> m <> OptDMD -> (forall z, In z e -> is_log (lg z) z) -> exists fs gs,
    frequency lg true (Some e) (fitted_dt m) = Ok fs /\ growth_rate (Some e) (fitted_dt m) = Ok gs /\ gs = map fst e /\
    length fs = length e /\ forall n z f, nth_error e n = Some z -> nth_error fs n = Some f ->
    (forall k, cpow z k = polar (modulus z ^ k) (2 * PI * f * INR k)) /\ - (1 / 2) < f <= 1 / 2).
Proof.
  split.
  - intros [-> | ->]; split; reflexivity.
  - intros N1 N2 L. assert (D : fitted_dt m = Some 1) by (destruct m; [reflexivity..|now contradict N1|now contradict N2]).
    rewrite D. eexists. eexists. split; [reflexivity|]. split; [reflexivity|]. split; [apply map_ext; intro; field|].
    destruct (@C68_frequency lg e 1 _ Rlt_0_1 L eq_refl) as [HL HC]. split; [exact HL|]. intros n z f Hz Hf.
    destruct (HC n z f Hz Hf) as [Hk Hb]. split; [intro k; rewrite (Hk k); f_equal; ring|]. replace (1 / 2) with (1 / (2 * 1)) by field. exact Hb.
Qed.
(** Before fit, with the eigenvalues of DMDBase (None): TypeError and AttributeError. *)
Theorem C68_unfitted lg c h : frequency lg c None h = Err TypeError /\ growth_rate None h = Err AttributeError /\
  varpro_frequency None = Err AttributeError /\ varpro_growth_rate None = Err AttributeError.
Proof. repeat split. Qed.
Print Assumptions C68_frequency.
Print Assumptions C68_alias.
Print Assumptions C68_real.
Print Assumptions C68_real_refuted.
Print Assumptions C68_growth.
Print Assumptions C68_growth_refuted.
Print Assumptions C68_varpro.
Print Assumptions C68_no_time_refuted.
Print Assumptions C68_unfitted.

(** The eigenvalue i with dt = 1/2: a quarter of a turn in a step, frequency 1/2. *)
Example C68_case : is_log (0, PI / 2) (0, 1) /\ frequency (fun _ => (0, PI / 2)) true (Some [(0, 1)]) (Some (/ 2)) = Ok [/ 2].
Proof.
  assert (P := PI_RGT_0). split.
  - unfold is_log, polar. cbn. rewrite exp_0, cos_PI2, sin_PI2. split; [f_equal; ring|lra].
  - cbn. do 2 f_equal. field. lra.
Qed.
