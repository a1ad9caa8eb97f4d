(** * DMD with control (dmdc.py)

    The SVD, eigendecomposition, least squares and pseudo-inverse are the
    routines of [numpy] (Model_Operator.v).  [B], when given, has as many rows
    as the snapshots (NumPy would broadcast a one-row [B]; not modelled). *)
From mathcomp Require Import all_ssreflect all_algebra.
From Verif Require Import Py LinAlg Model_Operator.
From Verif Require Model_Utils.
Set Implicit Arguments. Unset Strict Implicit. Unset Printing Implicit Defensive.
Import GRing.Theory Num.Theory.
Local Open Scope ring_scope.

Section Model.
Variable C : numClosedFieldType.
Variable np : numpy C.

(** ** Arguments *)
(** a control input: a one- or a two-dimensional array. Arguments of dmdc.py:292 *)
Record mat := Mat { mrows : nat; mcols : nat; mdata : 'M[C]_(mrows, mcols) }.
(** np.asarray(I), dmdc.py:308; control_input, 259 *)
Inductive arr := Arr1 of seq C | Arr2 of mat.
(** np.atleast_2d (dmdc.py:308) *)
Definition atleast_2d (a : arr) : mat :=
  match a with Arr1 l => Mat (\row_(j < size l) l`_j) | Arr2 M => M end.
(** [a.shape[-1]]. dmdc.py:264 *)
Definition last_dim (a : arr) : nat := match a with Arr1 l => size l | Arr2 M => mcols M end.

(** dmdc.py:199-220 *)
Record dc_cfg := DcCfg {
  dc_rank : Model_Utils.rank_arg; dc_rank_omega : Model_Utils.rank_arg;
  dc_tlsq : int; dc_opt : opt_arg; dc_lag : int }.

(** dmdc.py:39-47: exact modes, nothing else *)
Definition op_of (cfg : dc_cfg) : op_cfg C := OpCfg (dc_rank cfg) true false (RsNone C) SoNone None.

(** [M[:, a : a + k]]. dmdc.py:316-317 *)
Definition cols_from n N (M : 'M[C]_(n, N)) (a k : nat) : 'M[C]_(n, k) :=
  \matrix_(i, j) (if insub (a + j)%N is Some t then M i t else 0).

(** what the operator stores, and the basis returned. dmdc.py:139-149, 157-167 *)
Record dc_op n := DcOp {
  do_r : nat; do_basis : 'M[C]_(n, do_r); do_Atilde : 'M[C]_do_r;
  do_eigs : 'rV[C]_do_r; do_vecs : 'M[C]_do_r; do_modes : 'M[C]_(n, do_r) }.

(** [Y - P] where NumPy broadcasts a one-column [P]; other widths raise ValueError
    (a [Y] of one column would itself be broadcast and the next product would raise). dmdc.py:90 *)
Definition minus_bcast n m m' (Y : 'M[C]_(n, m)) (P : 'M[C]_(n, m')) : result 'M[C]_(n, m) :=
  if m' == m then Ok (Y - conform_mx 0 P)
  else if m' == 1%N then Ok (\matrix_(i, j) (Y i j - (conform_mx 0 P : 'cV_n) i 0))
  else Err ValueError.

(** ** DMDBKnownOperator.compute_operator (dmdc.py:73-91) *)
Definition known_operator (cfg : dc_cfg) n m (X Y : 'M[C]_(n, m)) q (B : 'M[C]_(n, q)) (I : mat) : result (dc_op n) :=
  let XY := compute_tlsq np X Y (dc_tlsq cfg) in
  if mrows I != q then Err ValueError
  else
    let! Y' := minus_bcast XY.2 (B *m (conform_mx 0 (mdata I) : 'M_(q, mcols I))) in
    let! o := (compute_operator np (op_of cfg) XY.1 Y').2 in
    Ok (DcOp (of_U o) (of_Atilde o) (of_eigs o) (of_vecs o) (of_modes o)).

(** ** DMDBUnknownOperator.compute_operator (dmdc.py:115-167); [np.vstack] needs equal widths *)
Definition unknown_operator (cfg : dc_cfg) n m (X Y : 'M[C]_(n, m)) (I : mat) : result (dc_op n * 'M[C]_(n, mrows I)) :=
  if mcols I != m then Err ValueError
  else
    let omega := col_mx X (conform_mx 0 (mdata I) : 'M_(mrows I, m)) in
    let p := compute_svd np omega (dc_rank_omega cfg) in
    let Up1 := usubmx (sv_U p) in
    let Up2 := dsubmx (sv_U p) in
    let Ur := sv_U (compute_svd np Y (dc_rank cfg)) in
    let At := adj Ur *m Y *m sv_V p *m diag_mx (recip (sv_s p)) *m adj Up1 *m Ur in
    let! ew := eigenquantities np (op_of cfg) At in
    let modes := Y *m sv_V p *m diag_mx (recip (sv_s p)) *m adj Up1 *m Ur *m ew.2 in
    let Bt := adj Ur *m Y *m sv_V p *m diag_mx (recip (sv_s p)) *m adj Up2 in
    Ok (DcOp Ur At ew.1 ew.2 modes, Ur *m Bt).

(** ** DMDc.fit (dmdc.py:292-337)
    The state left on the instance by a successful call. *)
Record dc_fit n N := DcFit {
  ft_lag : nat; ft_S : 'M[C]_(n, N); ft_I : mat;
  ft_q : nat; ft_B : 'M[C]_(n, ft_q);
  ft_op : dc_op n; ft_b : 'cV[C]_(do_r ft_op) }.

(** dmdbase.py:672-745 with [_exact] False (dmdc.py:212): [X] is all snapshots but the
    last, whatever the lag *)
Definition dc_amplitudes (cfg : dc_cfg) n N (S : 'M[C]_(n, N)) (o : dc_op n) : result 'cV[C]_(do_r o) :=
  amplitudes np false (dc_opt cfg) S (cols_from S 0 N.-1)
    (OpFit (do_basis o) 0 (0 : 'M_(N.-1, do_r o)) (do_Atilde o) (do_eigs o) (do_vecs o) (do_modes o)).

(** dmdc.py:307-337 *)
Definition fit (cfg : dc_cfg) n N (S : 'M[C]_(n, N)) (I : arr) (B : option {q : nat & 'M[C]_(n, q)}) : result (dc_fit n N) :=
  let I2 := atleast_2d I in
  match dc_lag cfg with
  | Posz (l.+1 as lag) =>
      let X := cols_from S 0 (N - lag) in
      let Y := cols_from S lag (N - lag) in
      match B with
      | None =>
          let! oB := unknown_operator cfg X Y I2 in
          let! b := dc_amplitudes cfg S oB.1 in
          Ok (DcFit lag S I2 oB.2 b)
      | Some (existT q B) =>
          let! o := known_operator cfg X Y B I2 in
          let! b := dc_amplitudes cfg S o in
          Ok (DcFit lag S I2 B b)
      end
  | _ => Err ValueError
  end.

(** ** The time window (dmdbase.py:199-211, 319-321): rational times *)
Record times := Times { tm_t0 : rat; tm_tend : rat; tm_dt : rat; tm_dt0 : rat }.
(** The floor division of dmdc.py:271 *)
Definition floorq (q : rat) : int := (numq q %/ denq q)%Z.
(** np.arange, dmdbase.py:199-211 *)
Definition ceilq (q : rat) : int := - floorq (- q).
(** the length of np.arange(t0, tend + dt, dt). dmdbase.py:199-211 *)
Definition arange_len (a b d : rat) : nat :=
  match ceilq ((b - a) / d) with Posz k => k | Negz _ => 0 end.
(** dmdbase.py:199-211, read at dmdc.py:264 *)
Definition n_steps (t : times) : nat := arange_len (tm_t0 t) (tm_tend t + tm_dt t) (tm_dt t).
(** the window set by fit (dmdc.py:319-321) *)
Definition time_of_fit (N : nat) : times := Times 0 (N%:R - 1) 1 1.

(** ** reconstructed_data (dmdc.py:247-290)
    [Phi] and [L] are the active modes and eigenvalues.  The result lists the snapshots. *)
Definition step_matrix (t : times) n r (Phi : 'M[C]_(n, r)) (L : 'rV[C]_r) : 'M[C]_n :=
  let k := floorq (tm_dt t / tm_dt0 t) in
  Phi *m diag_mx (\row_j np_power np (L 0 j) k%:~R) *m np_pinv np Phi.

(** dmdc.py:281-287; iterating a one-dimensional array yields scalars, for which
    [B.dot] gives a matrix and the shape test fails *)
Fixpoint advance n q (A : 'M[C]_n) (B : 'M[C]_(n, q)) (i : nat) (us : seq 'cV[C]_q) (data : seq 'cV[C]_n) : seq 'cV[C]_n :=
  match us with
  | [::] => data
  | u :: us' => advance A B i.+1 us' (rcons data (A *m nth 0 data i + B *m u))
  end.

(** controlin.T, dmdc.py:281 *)
Definition mat_cols q m (M : 'M[C]_(q, m)) : seq 'cV[C]_q := [seq col j M | j <- enum 'I_m].

(** dmdc.py:277-289 *)
Definition reconstruct_from (lag : nat) n N (S : 'M[C]_(n, N)) q (B : 'M[C]_(n, q)) (A : 'M[C]_n) (u : arr) : result (seq 'cV[C]_n) :=
  if (N < lag)%N then Err IndexError
  else
    let data := mat_cols (cols_from S 0 lag) in
    if last_dim u == 0%N then Ok data
    else match u with
    | Arr1 _ => Err ValueError
    | Arr2 M => if mrows M != q then Err ValueError
                else Ok (advance A B 0 (mat_cols (conform_mx 0 (mdata M) : 'M_(q, mcols M))) data)
    end.

(** dmdc.py:258-290 *)
Definition reconstructed_data n N (f : dc_fit n N) r (Phi : 'M[C]_(n, r)) (L : 'rV[C]_r) (t : times) (u : option arr)
    : result (seq 'cV[C]_n) :=
  let u' := match u with Some a => a | None => Arr2 (ft_I f) end in
  if (last_dim u')%:Z != (n_steps t)%:Z - (ft_lag f)%:Z then Err RuntimeError
  else reconstruct_from (ft_lag f) (ft_S f) (ft_B f) (step_matrix t Phi L) u'.
End Model.
