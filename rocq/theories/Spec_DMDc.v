(** * Vocabulary of C31: controlled linear systems *)
From mathcomp Require Import all_ssreflect all_algebra.
From Verif Require Import Py LinAlg Model_Operator Spec_Operator Model_DMDc.
From Verif Require Model_Utils.
Set Implicit Arguments. Unset Strict Implicit. Unset Printing Implicit Defensive.
Import GRing.Theory Num.Theory.
Local Open Scope ring_scope.

Section Spec.
Variable C : numClosedFieldType.
Implicit Type np : numpy C.

(** a list of snapshots is driven by the inputs [us] through x[k+lag] = A x[k] + B u[k] *)
Definition driven n q (A : 'M[C]_n) (B : 'M[C]_(n, q)) (lag : nat) (us : seq 'cV[C]_q) (d : seq 'cV[C]_n) : Prop :=
  forall k, (k < size us)%N -> nth 0 d (k + lag) = A *m nth 0 d k + B *m nth 0 us k.

(** the columns of a matrix, in order *)
Definition columns n m (M : 'M[C]_(n, m)) : seq 'cV[C]_n := [seq col j M | j <- enum 'I_m].

(** a basis of the span of the columns holds them all *)
Definition in_span n m p (X : 'M[C]_(n, m)) (Z : 'M[C]_(n, p)) : Prop := exists c, Z = X *m c.

(** the snapshots with and without a successor [lag] later *)
Definition past n N (lag : nat) (S : 'M[C]_(n, N)) : 'M[C]_(n, N - lag) := cols_from S 0 (N - lag).
Definition future n N (lag : nat) (S : 'M[C]_(n, N)) : 'M[C]_(n, N - lag) := cols_from S lag (N - lag).

(** the decomposition asked of the SVD routine is right and drops nothing *)
Definition kept np n m (X : 'M[C]_(n, m)) (rk : Model_Utils.rank_arg) : Prop :=
  svd_ok np X /\ untruncated X (sv_U (compute_svd np X rk)) (sv_s (compute_svd np X rk)) (sv_V (compute_svd np X rk)).

(** the eigenvectors form a basis, no eigenvalue vanishes, and the routines do what
    they document on the calls made *)
Record regular_fit np n N (f : dc_fit C n N) : Prop := {
  rf_eig : eig_ok np (do_Atilde (ft_op f));
  rf_diag : do_vecs (ft_op f) \in unitmx;
  rf_nz : forall j, do_eigs (ft_op f) 0 j != 0;
  rf_pinv : pinv_ok np (do_modes (ft_op f));
  rf_power : power_ok np }.

(** the data come from the controlled system (A0, B0) with input [U] *)
Record controlled_fit np n N q (lag : nat) (cfg : dc_cfg) (A0 : 'M[C]_n) (B0 : 'M[C]_(n, q))
    (S : 'M[C]_(n, N)) (U : 'M[C]_(q, N - lag)) (B : option {q : nat & 'M[C]_(n, q)}) (f : dc_fit C n N) : Prop := {
  cf_fit : fit np cfg S (Arr2 (Mat U)) B = Ok f;
  cf_lag : dc_lag cfg = lag;
  cf_size : (lag <= N)%N;
  cf_driven : driven A0 B0 lag (columns U) (columns S);
  cf_regular :> regular_fit np f }.

(** B given: the SVD of the past keeps everything and A0 maps the past into its own span *)
Record known_fit np n N q lag cfg A0 B0 S U f : Prop := {
  kf_plain :> @controlled_fit np n N q lag cfg A0 B0 S U (Some (existT _ q B0)) f;
  kf_tlsq : dc_tlsq cfg = 0;
  kf_svd : kept np (past lag S) (dc_rank cfg);
  kf_inv : in_span (past lag S) (A0 *m past lag S) }.

(** B unknown: past and input are linearly independent, both SVDs keep everything *)
Record unknown_fit np n N q lag cfg A0 B0 S U f : Prop := {
  uf_plain :> @controlled_fit np n N q lag cfg A0 B0 S U None f;
  uf_free : row_free (col_mx (past lag S) U);
  uf_svd : kept np (col_mx (past lag S) U) (dc_rank_omega cfg);
  uf_svdY : kept np (future lag S) (dc_rank cfg) }.

(** the matrix that advances the reconstruction by one step when the time step is the fitted one *)
Definition fitted_map np n N (f : dc_fit C n N) : 'M[C]_n :=
  do_modes (ft_op f) *m diag_mx (do_eigs (ft_op f)) *m np_pinv np (do_modes (ft_op f)).
End Spec.
