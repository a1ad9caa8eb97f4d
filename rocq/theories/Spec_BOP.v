(** * Vocabulary of C40-C42, C54, C55 and contracts of the externals of Model_BOP.v *)
From mathcomp Require Import all_ssreflect all_fingroup all_algebra.
From Verif Require Import Py LinAlg Model_Operator Spec_Operator Model_BOP.
Set Implicit Arguments. Unset Strict Implicit. Unset Printing Implicit Defensive.
Import GRing.Theory Num.Theory.
Local Open Scope ring_scope.

Section Spec.
Variable C : numClosedFieldType.
Implicit Type x : ext C.

(** ** Contracts of the externals *)
(** set.pop removes an element of the set *)
Definition pop_ok x : Prop := forall r (i0 : 'I_r) s, i0 \in s -> x_pop x i0 s \in s.
(** np.random.choice without replacement *)
Definition choice_ok x : Prop := forall k M b, (b <= M)%N -> uniq (x_choice x k M b) /\ size (x_choice x k M b) = b.
(** pivoted economic QR of a matrix with at least as many rows as columns *)
Definition is_qr a b (J Q : 'M[C]_(a, b)) (R : 'M[C]_b) (p : 'S_b) : Prop :=
  [/\ adj Q *m Q = 1%:M, (forall i j : 'I_b, (j < i)%N -> R i j = 0) & \matrix_(i, j) J i (p j) = Q *m R].
Definition qr_ok x a b (J : 'M[C]_(a, b)) : Prop := is_qr J (x_qr x J).1.1 (x_qr x J).1.2 (x_qr x J).2.

(** ** Spectra *)
Definition conj_closed r (e : 'rV[C]_r) : Prop := forall i, exists j, e 0 j = (e 0 i)^*.

(** [e'] comes from [e] by pairing index i with index s i: a pair gets the mean real part and the mean modulus
    of the imaginary parts, each keeping its sign; one index, of least imaginary part, is left alone and made
    real exactly when the number of eigenvalues is odd *)
Record pairing r (e e' : 'rV[C]_r) (s : 'I_r -> 'I_r) : Prop := {
  pa_inv : involutive s;
  pa_odd : odd r = [exists i, s i == i];
  pa_one : forall i j, s i = i -> s j = j -> i = j;
  pa_real : forall i, s i = i -> e' 0 i = 'Re (e 0 i) /\ forall j, `|'Im (e 0 i)| <= `|'Im (e 0 j)|;
  pa_re : forall i, s i != i -> 'Re (e' 0 i) = ('Re (e 0 i) + 'Re (e 0 (s i))) / 2%:R;
  pa_im : forall i, s i != i -> 'Im (e' 0 i) = Num.sg ('Im (e 0 i)) * ((`|'Im (e 0 i)| + `|'Im (e 0 (s i))|) / 2%:R);
  pa_near : forall i, s i != i ->
    (forall j, `|e 0 (s i) - (e 0 i)^*| <= `|e 0 j - (e 0 i)^*|) \/
    (forall j, `|e 0 i - (e 0 (s i))^*| <= `|e 0 j - (e 0 (s i))^*|) }.

(** a spectrum of distinct conjugate pairs, with one real eigenvalue exactly when the number is odd *)
Record clean_spectrum r (e : 'rV[C]_r) : Prop := {
  cl_inj : injective (fun i => e 0 i);
  cl_conj : conj_closed e;
  cl_real : #|[pred i | e 0 i \is Num.real]| = odd r }.

(** ** Variable projection *)
Section VarPro.
Variables (np : numpy C) (x : ext C) (con : constr C) (prox : option (prox_fun C)) (M IS : nat).
Variables (H : 'M[C]_(M, IS)) (t : 'rV[C]_M).

(** the relative error of a model H ~ sum of exponentials with rates [al] and coefficients [B]:
    |H - [exp(t_i al_j)] B|_F / |H|_F *)
Definition model_error r (c : 'rV[C]_r * 'M[C]_(r, IS)) : C :=
  np_norm np (H - (\matrix_(i, j) x_exp x (t 0 i * c.1 0 j)) *m c.2) / np_norm np H.
(** the coefficients are the fit for the rates: least squares, then the proximal operator if there is one *)
Definition fitted r (c : 'rV[C]_r * 'M[C]_(r, IS)) : Prop := c.2 = compute_B np x prox H t c.1.
(** the rates are the outcome of the constraint on some vector *)
Definition constrained r (a : 'rV[C]_r) : Prop := exists a0, push x con a0 = Ok a.
(** a run: the iterates kept, in order *)
Record descent r (tol : C) (maxiter : nat) (l : seq ('rV[C]_r * 'M[C]_(r, IS))) : Prop := {
  de_len : (size l <= maxiter.+1)%N;
  de_fit : forall c, c \in l -> fitted c /\ constrained c.1;
  de_dec : forall k, (k.+1 < size l)%N -> model_error (nth (0, 0) l k.+1) < model_error (nth (0, 0) l k);
  (* no iterate between the first and the last is below the tolerance *)
  de_tol : forall k, (0 < k)%N -> (k.+1 < size l)%N -> ~~ (model_error (nth (0, 0) l k) < tol) }.
End VarPro.

(** ** Bagging *)
(** the eigenvalues, taken in the order [s], are sorted: by real part then imaginary part, by imaginary part
    then real part, or by modulus *)
Definition sorted_by (so : esort) r (e : 'rV[C]_r) (s : 'I_r -> 'I_r) : Prop :=
  injective s /\ forall i j : 'I_r, (i <= j)%N ->
  let a := e 0 (s i) in let b := e 0 (s j) in
  match so with
  | EsReal => 'Re a < 'Re b \/ 'Re a = 'Re b /\ 'Im a <= 'Im b
  | EsImag => 'Im a < 'Im b \/ 'Im a = 'Im b /\ 'Re a <= 'Re b
  | EsAbs => `|a| <= `|b|
  | _ => False
  end.

(** population mean and variance of a sequence *)
Definition avg (l : seq C) : C := (\sum_(a <- l) a) / (size l)%:R.
Definition var (l : seq C) : C := avg [seq `|a - avg l| ^+ 2 | a <- l].

(** what a sequence of trials shows: the outcome of trial i, kept or not *)
Section Bag.
Variables (cfg : bop_cfg C) (n q r : nat) (out : nat -> trial_out C n q r).
Definition kept (i : nat) : bool := to_conv (out i) || ~~ bc_remove cfg.
(** the trials kept among the first K *)
Definition kept_among (K : nat) : seq nat := [seq i <- iota 0 K | kept i].
End Bag.
End Spec.
