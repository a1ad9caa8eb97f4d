(** * C64: the kernel arguments of LANDO and EDMD *)
From Coq Require Import List QArith String Bool Arith Lia.
From Verif Require Import Py Model_KernelArgs Spec_KernelArgs.
Import ListNotations.
Open Scope nat_scope.
Open Scope string_scope.

Lemma supportedP m : existsb (String.eqb m) supported = true <-> lando_metric m.
Proof.
  unfold supported, lando_metric. simpl. rewrite !orb_true_iff, !String.eqb_eq. intuition discriminate.
Qed.
Lemma arrayP s r : is_array s r = true <-> r = RArray s.
Proof.
  destruct r as [|s'|]; simpl; try (split; discriminate). destruct (list_eq_dec Nat.eq_dec s s') as [->|N].
  - tauto.
  - split; [discriminate|]. intros [= E]. congruence.
Qed.
Lemma inputsP sk m p d : lando_inputs sk m p = Ok d <-> lando_metric m /\ means p d /\ sk m d = true.
Proof.
  unfold lando_inputs, means. destruct (existsb (String.eqb m) supported) eqn:E.
  - apply supportedP in E. destruct p as [|d'|].
    + destruct (sk m []) eqn:K; split.
      * intros [= <-]. auto.
      * intros (_ & [H|[_ ->]] & _); [discriminate|reflexivity].
      * discriminate.
      * intros (_ & [H|[_ ->]] & K'); [discriminate|congruence].
    + destruct (sk m d') eqn:K; split.
      * intros [= <-]. auto.
      * intros (_ & [[= ->]|[H _]] & _); [reflexivity|discriminate].
      * discriminate.
      * intros (_ & [[= ->]|[H _]] & K'); [congruence|discriminate].
    + split; [discriminate|]. intros (_ & [H|[H _]] & _); discriminate.
  - split; [discriminate|]. intros (H & _). apply supportedP in H. congruence.
Qed.
Lemma functionsP f g w : lando_functions f g = Ok w <-> functions_ok f g /\ (w = true <-> f <> FNone /\ g = FNone).
Proof.
  unfold functions_ok, kernel_like, gradient_like, lando_functions.
  destruct f as [|k|], g as [|k'|]; try (destruct (is_array [10; 20] (k [5; 10] [5; 20])) eqn:A);
    try (destruct (is_array [10; 5] (k' [5; 10] [5])) eqn:B);
    repeat match goal with H : is_array _ _ = true |- _ => apply arrayP in H
      | H : is_array ?s ?r = false |- _ => assert (r <> RArray s) by (rewrite <- arrayP, H; discriminate); clear H end;
    split;
    try (intros [= <-]); try discriminate;
    try (intros [H1 H2]; exfalso; destruct H1 as [[H1 H3]|[[k1 [H1 H3]] [H4|[k2 [H4 H5]]]]]; congruence).
  - split; [left; auto|]. split; [discriminate|tauto].
  - intros [_ H]. destruct w; [|reflexivity]. destruct (proj1 H eq_refl). congruence.
  - split; [right; split; [eauto|left; reflexivity]|]. split; [split; congruence|reflexivity].
  - intros [_ H]. rewrite (proj2 H); [reflexivity|]. split; congruence.
  - split; [right; split; [eauto|right; eauto]|]. split; [discriminate|intros [_ H']; discriminate].
  - intros [_ H']. destruct w; [|reflexivity]. destruct (proj1 H' eq_refl). discriminate.
Qed.

(** LANDO accepts exactly: one of its three metrics, no parameters or a dictionary that scikit-learn takes for it, and custom
    functions that keep the documented format on samples with five features; it warns exactly if a kernel comes without gradient. *)
Theorem C64_lando sk m p f g d w : lando_init sk m p f g = Ok (d, w) <->
  lando_metric m /\ means p d /\ sk m d = true /\ functions_ok f g /\ (w = true <-> f <> FNone /\ g = FNone).
Proof.
  unfold lando_init. split.
  - destruct (lando_inputs sk m p) as [d'|] eqn:E1; [|discriminate]. cbn [bind].
    destruct (lando_functions f g) as [w'|] eqn:E2; [|discriminate]. cbn [bind]. intros [= <- <-].
    apply inputsP in E1. apply functionsP in E2. tauto.
  - intros (H1 & H2 & H3 & H4 & H5). rewrite (proj2 (inputsP sk m p d)) by tauto. cbn [bind].
    rewrite (proj2 (functionsP f g w)) by tauto. reflexivity.
Qed.
(** Whatever it refuses, it refuses with a ValueError, except that it is a TypeError if the parameters are no dictionary, or the
    rest of these two is fine and a custom kernel or its gradient is no function. *)
Theorem C64_lando_errors sk m p f g e : lando_init sk m p f g = Err e ->
  (e = ValueError \/ e = TypeError) /\
  (e = TypeError <-> lando_metric m /\ (p = KElse \/ (exists d, means p d /\ sk m d = true) /\
     (f = FNotFun \/ (f <> FNone /\ g = FNotFun)))).
Proof.
  unfold lando_init. destruct (lando_inputs sk m p) as [d|e'] eqn:E1; cbn [bind].
  - destruct (lando_functions f g) as [w|e2] eqn:E2; cbn [bind]; [discriminate|]. intros [= <-].
    apply inputsP in E1. destruct E1 as (H1 & H2 & H3).
    assert (NE : p <> KElse) by (destruct H2 as [-> | [-> _]]; discriminate).
    assert (HH : e2 = TypeError <-> f = FNotFun \/ (f <> FNone /\ g = FNotFun)).
    { unfold lando_functions in E2. destruct f as [|k|], g as [|k'|];
      try (destruct (is_array [10; 20] (k [5; 10] [5; 20])));
      try (destruct (is_array [10; 5] (k' [5; 10] [5]))); try discriminate E2; injection E2 as <-;
      (split; [intros A; try discriminate A; intuition discriminate | intros [A|[A B]]; try reflexivity; try discriminate; congruence]). }
    split.
    + unfold lando_functions in E2. destruct f as [|k|], g as [|k'|];
      try (destruct (is_array [10; 20] (k [5; 10] [5; 20])));
      try (destruct (is_array [10; 5] (k' [5; 10] [5]))); try discriminate E2; injection E2 as <-; auto.
    + rewrite HH. split; [intros A; split; [assumption|]; right; split; [exists d; auto|assumption]|].
      intros [_ [A|[_ A]]]; [contradiction|assumption].
  - intros [= <-]. unfold lando_inputs in E1. destruct (existsb (String.eqb m) supported) eqn:E.
    + apply supportedP in E. destruct p as [|d'|].
      * destruct (sk m []) eqn:K; [discriminate|]. injection E1 as <-. split; [auto|]. split; [discriminate|].
        intros [_ [A|[[d [[A|[_ ->]] B]] _]]]; congruence.
      * destruct (sk m d') eqn:K; [discriminate|]. injection E1 as <-. split; [auto|]. split; [discriminate|].
        intros [_ [A|[[d [[A|[A _]] B]] _]]]; congruence.
      * injection E1 as <-. tauto.
    + injection E1 as <-. split; [auto|]. split; [discriminate|]. intros [A _]. apply supportedP in A. congruence.
Qed.
(** A custom kernel is documented to be used instead of the built-in ones; the metric is checked all the same. *)
Theorem C64_custom_metric_refuted sk m p f g : ~ lando_metric m -> lando_init sk m p f g = Err ValueError.
Proof.
  intros H. unfold lando_init, lando_inputs. destruct (existsb (String.eqb m) supported) eqn:E; [|reflexivity].
  apply supportedP in E. contradiction.
Qed.
(** A custom kernel for the data at hand, with another number of features than five, is refused. *)
Theorem C64_features_refuted sk m p k g n r : n <> 5%nat -> only_for n k -> lando_init sk m p (FFun k) g <> Ok r.
Proof.
  intros H K E. destruct r as [d w]. apply C64_lando in E. destruct E as (_ & _ & _ & [[A _]|[[k' [A B]] _]] & _); [discriminate|].
  injection A as <-. rewrite (K 5%nat 10%nat 20%nat) in B; [discriminate|congruence].
Qed.

(** EDMD accepts any metric that scikit-learn takes, with a rank other than zero. *)
Theorem C64_edmd sk z m p d : edmd_init sk z m p = Ok d <-> z = false /\ means p d /\ sk m d = true.
Proof.
  unfold edmd_init, means. destruct z; [split; [discriminate|intros [A _]; discriminate]|].
  destruct p as [|d'|].
  - destruct (sk m []) eqn:K; split; try discriminate.
    + intros [= <-]. auto.
    + intros (_ & [A|[_ ->]] & _); [discriminate|reflexivity].
    + intros (_ & [A|[_ ->]] & B); [discriminate|congruence].
  - destruct (sk m d') eqn:K; split; try discriminate.
    + intros [= <-]. auto.
    + intros (_ & [[= ->]|[A _]] & _); [reflexivity|discriminate].
    + intros (_ & [[= ->]|[A _]] & B); [congruence|discriminate].
  - split; [discriminate|]. intros (_ & [A|[A _]] & _); discriminate.
Qed.
Theorem C64_edmd_errors sk z m p e : edmd_init sk z m p = Err e ->
  (e = ValueError \/ e = TypeError) /\ (e = TypeError <-> z = false /\ p = KElse).
Proof.
  unfold edmd_init. destruct z; [intros [= <-]; intuition discriminate|].
  destruct p as [|d'|]; [destruct (sk m []) eqn:K|destruct (sk m d') eqn:K|]; try discriminate; intros [= <-]; intuition discriminate.
Qed.
(** Both keep the dictionary that was given, and agree where LANDO has the metric and no custom function. *)
Theorem C64_agree sk m p d : lando_metric m -> lando_init sk m p FNone FNone = Ok (d, false) <-> edmd_init sk false m p = Ok d.
Proof.
  intros M. rewrite C64_lando, C64_edmd. split; [tauto|]. intros (_ & A & B). repeat split; auto.
  - left. auto.
  - discriminate.
  - intros [A1 _]. congruence.
Qed.

(** The gradient of a built-in kernel uses the constants of the kernel, unless gamma is given as None ... *)
Theorem C64_constants m n d : param "gamma" d <> Some PNone -> grad_consts m n d = sk_consts m n d.
Proof.
  intros G. unfold grad_consts, sk_consts, grad_const, sk_const.
  destruct (String.eqb m "linear"); [reflexivity|].
  destruct (param "gamma" d) as [[q| |]|]; try reflexivity; try (now elim G); cbn [bind];
    (destruct (String.eqb m "poly"); [|reflexivity]);
    destruct (param "coef0" d) as [[c| |]|]; cbn; try reflexivity;
    destruct (param "degree" d) as [[e| |]|]; reflexivity.
Qed.
(** ... which is the default of scikit-learn: the model can be fitted, the fixed point analysis raises. *)
Theorem C64_gamma_none_refuted m n d : lando_metric m -> m <> "linear" -> param "gamma" d = Some PNone ->
  (forall v, param "coef0" d = Some v -> exists q, v = PNum q) -> (forall v, param "degree" d = Some v -> exists q, v = PNum q) ->
  (exists l, sk_consts m n d = Ok l) /\ grad_consts m n d = Err TypeError.
Proof.
  intros _ L G C1 D1. unfold grad_consts, sk_consts, grad_const, sk_const.
  destruct (String.eqb_spec m "linear"); [contradiction|]. rewrite G. cbn. split; [|reflexivity].
  destruct (String.eqb m "poly"); [|eauto].
  destruct (param "coef0" d) as [v|]; [destruct (C1 v eq_refl) as [q ->]|]; cbn;
    (destruct (param "degree" d) as [v'|]; [destruct (D1 v' eq_refl) as [q' ->]|]; cbn; eauto).
Qed.

(** The constants are the values of the dictionary, and the defaults of scikit-learn for the missing ones. *)
Lemma grad_uses k q0 d q : grad_const k q0 d = Ok q -> uses d k q0 q.
Proof.
  unfold grad_const, uses. intros H. assert (P : match param k d with None => ~ In k (map fst d) | Some v => In (k, v) d end).
  { clear H. induction d as [|[k' v] d IH]; [intros []|]. cbn. destruct (String.eqb_spec k k') as [->|N]; [now left|].
    destruct (param k d); [now right|]. intros [F|F]; [congruence|contradiction]. }
  destruct (param k d) as [[r| |]|]; try discriminate; injection H as <-; [now left|now right].
Qed.
Theorem C64_values m n d l : lando_metric m -> grad_consts m n d = Ok l ->
  (m = "linear" -> l = []) /\
  (m = "rbf" -> exists g, l = [g] /\ uses d "gamma" (1 / inject_Z (Z.of_nat n)) g) /\
  (m = "poly" -> exists g c e, l = [g; c; e] /\ uses d "gamma" (1 / inject_Z (Z.of_nat n)) g /\ uses d "coef0" 1 c /\ uses d "degree" 3 e).
Proof.
  intros _ H. unfold grad_consts in H. split; [|split]; intros ->; cbn [String.eqb] in H.
  - injection H as <-. reflexivity.
  - destruct (grad_const "gamma" _ d) as [g|] eqn:G; [|discriminate]. cbn in H. injection H as <-. exists g. split; [reflexivity|now apply grad_uses].
  - destruct (grad_const "gamma" _ d) as [g|] eqn:G; [|discriminate]. destruct (grad_const "coef0" _ d) as [c|] eqn:C1; [|discriminate].
    destruct (grad_const "degree" _ d) as [e|] eqn:E; [|discriminate]. cbn in H. injection H as <-. exists g, c, e.
    split; [reflexivity|]. repeat split; now apply grad_uses.
Qed.

(** A kernel by itself, with its transposed product shape; and one for two features only. *)
Definition grows (x y : list nat) : ret :=
  match x, y with [a; b], [c; d] => if Nat.eqb a c then RArray [b; d] else RRaise | _, _ => RElse end.
Definition plane (x y : list nat) : ret :=
  match x with a :: _ => if Nat.eqb a 2 then grows x y else RRaise | _ => RElse end.
Definition any_sk (m : string) (d : list (string * pval)) : bool := true.
Example C64_ex :
  lando_init any_sk "poly" (KDict [("degree", PNum 2)]) (FFun grows) FNone = Ok ([("degree", PNum 2)], true) /\
  lando_init any_sk "poly" KNone FNone (FFun grows) = Err ValueError /\
  lando_init any_sk "sigmoid" KNone (FFun grows) FNone = Err ValueError /\
  lando_init any_sk "rbf" KNone (FFun plane) FNone = Err ValueError /\
  edmd_init any_sk false "sigmoid" KNone = Ok [] /\
  sk_consts "rbf" 4 [("gamma", PNone)] = Ok [(1 / inject_Z 4)%Q] /\ grad_consts "rbf" 4 [("gamma", PNone)] = Err TypeError.
Proof. repeat split. Qed.
Example C64_plane : only_for 2 plane.
Proof. intros m a b H. unfold plane. destruct (Nat.eqb_spec m 2); [contradiction|reflexivity]. Qed.
Print Assumptions C64_lando.
Print Assumptions C64_lando_errors.
Print Assumptions C64_custom_metric_refuted.
Print Assumptions C64_features_refuted.
Print Assumptions C64_edmd.
Print Assumptions C64_edmd_errors.
Print Assumptions C64_agree.
Print Assumptions C64_constants.
Print Assumptions C64_values.
Print Assumptions C64_gamma_none_refuted.
