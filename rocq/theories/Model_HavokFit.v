(** * HAVOK (havok.py): fit, properties, prediction *)
From mathcomp Require Import all_ssreflect all_algebra.
From Verif Require Import Py LinAlg Model_Operator.
From Verif Require Model_Havok Model_Utils.
Set Implicit Arguments. Unset Strict Implicit. Unset Printing Implicit Defensive.
Import GRing.Theory Num.Theory.
Local Open Scope ring_scope.

Section HavokFit.
Variable C : numClosedFieldType.
Variable np : numpy C.
(** scipy.signal.lsim((A, B, C, D), U, T, X0)[1]: the output, one row for each time *)
Variable lsim : forall p q m, 'M[C]_p -> 'M[C]_(p, q) -> 'M[C]_p -> 'M[C]_(p, q) ->
  'M[C]_(m, q) -> seq C -> 'rV[C]_p -> 'M[C]_(m, p).

(** ** Constructor arguments (havok.py:61-78).
    [h_dmd]: [None], or the configuration of a DMD instance; BOPDMD and other instances are not modelled. *)
Record hv_cfg := HvCfg {
  h_rank : Model_Utils.rank_arg; h_delays : nat; h_lag : nat; h_nc : nat;
  h_structured : bool; h_lstsq : bool; h_dmd : option (dmd_cfg C) }.
(** the time argument (havok.py:361-381): a step, or the time vector.  The warning for uneven times is not modelled. *)
Inductive t_arg := TStep of C | TVec of seq C.
(** havok.py:362-371 *)
Definition time_of (m : nat) (t : t_arg) : result (seq C) :=
  match t with
  | TStep d => Ok [seq j%:R * d | j <- iota 0 m]
  | TVec l => if size l == m then (if m == 1%N then Err ValueError else Ok l) else Err ValueError
  end.
(** havok.py:384: time[1] - time[0] *)
Definition dt_of (l : seq C) : result C :=
  if (1 < size l)%N then Ok (l`_1 - l`_0) else Err IndexError.

(** the embedded data as a matrix: float arrays keep the real part.
    The float arrays of havok.py:305 and utils.py:316 *)
Definition real_part (x : C) : C := 'Re x.
(** havok.py:359 *)
Definition mx_of (H : Model_Havok.mat C) : 'M[C]_(Model_Havok.m_rows H, (Model_Havok.m_cols H).-1.+1) :=
  \matrix_(i, j) odflt 0 (Model_Havok.m_at H i j).

(** ** differentiate (utils.py:306-320) applied to V.T and transposed back (havok.py:397):
    second-order differences down each column, stored as floats.  Fewer than three rows: IndexError. *)
Definition at_row m r (V : 'M[C]_(m, r)) (i : nat) (j : 'I_r) : C :=
  if insub i is Some i' then V i' j else 0.
(** utils.py:306-320 called at havok.py:394 *)
Definition diff_rows (dt : C) m r (V : 'M[C]_(m, r)) : result 'M[C]_(m, r) :=
  if (m < 3)%N then Err IndexError
  else Ok (\matrix_(i, j) real_part (
    if (i == 0 :> nat)%N then (- 3%:R * at_row V 0 j + 4%:R * at_row V 1 j - at_row V 2 j) / (2%:R * dt)
    else if (i == m.-1 :> nat)
      then (3%:R * at_row V (m - 1) j - 4%:R * at_row V (m - 2) j + at_row V (m - 3) j) / (2%:R * dt)
      else (at_row V i.+1 j - at_row V i.-1 j) / (2%:R * dt))).

(** np.linalg.lstsq(V, Y)[0]: column by column. havok.py:408 *)
Definition lstsq_mx m r p (V : 'M[C]_(m, r)) (Y : 'M[C]_(m, p)) : 'M[C]_(r, p) :=
  \matrix_(i, j) np_lstsq np V (col j Y) i 0.

(** ** The embeddings and their derivative (havok.py:386-397) *)
Record embedded n := Embedded {
  e_m : nat; e_r : nat; e_U : 'M[C]_(n, e_r); e_s : 'rV[C]_e_r; e_V : 'M[C]_(e_m, e_r);
  e_dot : result 'M[C]_(e_m, e_r) }.
(** havok.py:391-394 *)
Definition embed_std (dt : C) (rk : Model_Utils.rank_arg) n m (H : 'M[C]_(n, m)) : embedded n :=
  let s := compute_svd np H rk in
  Embedded (sv_U s) (sv_s s) (sv_V s) (diff_rows dt (sv_V s)).
(** the second decomposition is truncated to the rank of the first one; other ranks cannot be subtracted.
    havok.py:384-388 *)
Definition embed_structured (dt : C) (rk : Model_Utils.rank_arg) n m (H : 'M[C]_(n, m.+1)) : embedded n :=
  let s := compute_svd np (col' ord_max H) rk in
  let s2 := compute_svd np (col' ord0 H) (Model_Utils.RInt (BinInt.Z.of_nat (sv_r s))) in
  Embedded (sv_U s) (sv_s s) (sv_V s)
    (match sv_r s2 =P sv_r s with
     | ReflectT e => Ok (dt^-1 *: (castmx (erefl m, e) (sv_V s2) - sv_V s))
     | ReflectF _ => Err ValueError
     end).
(** havok.py:384-394 *)
Definition embed (cfg : hv_cfg) (dt : C) n m (H : 'M[C]_(n, m.+1)) : embedded n :=
  if h_structured cfg then embed_structured dt (h_rank cfg) H else embed_std dt (h_rank cfg) H.

(** ** The operator (havok.py:408-437); the DMD instance is fitted on V.T and V_dot.T *)
Definition havok_operator (cfg : hv_cfg) m r (V Vd : 'M[C]_(m, r)) : result 'M[C]_r :=
  match h_dmd cfg with
  | None => Ok ((if h_lstsq cfg then lstsq_mx V Vd else np_pinv np V *m Vd)^T)
  | Some d =>
      let! f := (fit_xy np d V^T Vd^T).2 in
      let o := df_op f in
      Ok (of_modes o *m diag_mx (of_eigs o) *m np_pinv np (of_modes o))
  end.

(** ** Slices of the coordinates: [:-c] and [-c:]. havok.py:200, 239 *)
Definition head_ord (r c : nat) (i : 'I_(r - c)) : 'I_r := widen_ord (leq_subr c r) i.
Lemma tail_ordP (r c : nat) (H : (c <= r)%N) (i : 'I_c) : (r - c + i < r)%N.
Proof. by rewrite -{2}(subnK H) ltn_add2l. Qed.
(** havok.py:213, 252 *)
Definition tail_ord (r c : nat) (H : (c <= r)%N) (i : 'I_c) : 'I_r := Ordinal (tail_ordP H i).

(** what a successful fit stores (havok.py:440-453) *)
Record hv_fit := HvFit {
  hf_data : Model_Havok.hv_input C; hf_ho : Model_Havok.mat C; hf_time : seq C;
  hf_n : nat; hf_m : nat; hf_r : nat;
  hf_U : 'M[C]_(hf_n, hf_r); hf_s : 'rV[C]_hf_r; hf_V : 'M[C]_(hf_m, hf_r);
  hf_op : 'M[C]_hf_r }.
(** the instance: [_r] is assigned before the checks that may fail. havok.py:386, 393, 434-448 *)
Record hv_state := HvState { hs_r : option nat; hs_fit : option hv_fit }.

(** havok.py:240-251: A and B; 196-220: linear dynamics and forcing; 451-453: eigenvalues of A *)
Section Props.
Variables (c : nat) (f : hv_fit).
Definition hv_A : 'M[C]_(hf_r f - c) := \matrix_(i, j) hf_op f (head_ord i) (head_ord j).
(** havok.py:190-200 *)
Definition hv_linear : 'M[C]_(hf_m f, hf_r f - c) := \matrix_(i, j) hf_V f i (head_ord j).
(** havok.py:446-448 *)
Definition hv_eigs : 'rV[C]_(hf_r f - c) := (np_eig np hv_A).1.
Hypothesis Hc : (c <= hf_r f)%N.
(** havok.py:242-252 *)
Definition hv_B : 'M[C]_(hf_r f - c, c) := \matrix_(i, j) hf_op f (head_ord i) (tail_ord Hc j).
(** havok.py:203-213 *)
Definition hv_forcing : 'M[C]_(hf_m f, c) := \matrix_(i, j) hf_V f i (tail_ord Hc j).
End Props.

(** ** fit (havok.py:333-455).  Input: what is left after np.squeeze, one or two dimensions, more are refused. *)
Definition hv_samples (X : Model_Havok.hv_input C) : nat :=
  match X with Model_Havok.HV1 m _ | Model_Havok.HV2 _ m _ => m | _ => 0%N end.
(** havok.py:341-450 *)
Definition hv_fit_step (cfg : hv_cfg) (st : hv_state) (X : Model_Havok.hv_input C) (t : t_arg) : hv_state * result unit :=
  if [|| h_delays cfg == 0%N, h_lag cfg == 0%N | h_nc cfg == 0%N] then (st, Err ValueError)
  else match Model_Havok.hankel real_part (h_delays cfg) (h_lag cfg) X with
  | Err e => (st, Err e)
  | Ok H =>
      match time_of (hv_samples X) t with
      | Err e => (st, Err e)
      | Ok time =>
          match dt_of time with
          | Err e => (st, Err e)
          | Ok dt =>
              let E := embed cfg dt (mx_of H) in
              let st1 := HvState (Some (e_r E)) (hs_fit st) in
              match e_dot E with
              | Err e => (st1, Err e)
              | Ok Vd =>
                  if (e_r E < (h_nc cfg).+1)%N then (st1, Err ValueError)
                  else match havok_operator cfg (e_V E) Vd with
                  | Err e => (st1, Err e)
                  | Ok K => (HvState (Some (e_r E))
                               (Some (HvFit X H time (e_U E) (e_s E) (e_V E) K)), Ok tt)
                  end
              end
          end
      end
  end.

(** ** _embeddings_to_original (havok.py:803-812) followed by dehankel;
    more coordinates than the model has: the product is refused *)
Definition rank_H n r m w (U : 'M[C]_(n, r)) (s : 'rV[C]_r) (E : 'M[C]_(m, w)) (Hw : (w <= r)%N) : 'M[C]_(n, m) :=
  let k (j : 'I_w) := widen_ord Hw j in
  (\matrix_(i, j) U i (k j)) *m diag_mx (\row_j s 0 (k j)) *m adj E.
(** The matrix handed to dehankel, havok.py:811-812 *)
Definition mat_of n m (M : 'M[C]_(n, m)) : Model_Havok.mat C :=
  Model_Havok.Mat n m (fun i j => match insub i, insub j with Some i', Some j' => Some (M i' j') | _, _ => None end).
(** havok.py:803-812 *)
Definition to_original (cfg : hv_cfg) (f : hv_fit) m w (E : 'M[C]_(m, w)) : result (Model_Havok.dehankeled C) :=
  match (w <= hf_r f)%N =P true with
  | ReflectT Hw =>
      Model_Havok.dehankel real_part (h_delays cfg) (h_lag cfg) (Some (mat_of (rank_H (hf_U f) (hf_s f) E Hw)))
  | ReflectF _ => Err ValueError
  end.

(** ** _compute_embeddings (havok.py:781-801): lsim squeezes its output, so a single coordinate (or a single time)
    comes back one-dimensional; _embeddings_to_original then multiplies by a vector of the wrong length, or
    dehankel gets a vector: ValueError both ways.  A single coordinate at a single time has no last axis: IndexError. *)
Inductive squeezed m w := Two of 'M[C]_(m, w) | One | Zero.
(** scipy's lsim, called at havok.py:794 *)
Definition lsim_squeezed m w (E : 'M[C]_(m, w)) : squeezed m w :=
  if (m == 1%N) && (w == 1%N) then Zero m w else if (m == 1%N) || (w == 1%N) then One m w else Two E.
(** havok.py:780-801 *)
Definition compute_embeddings (c : nat) (f : hv_fit) (Hc : (c <= hf_r f)%N) m (u : 'M[C]_(m, c)) (time : seq C)
    (V0 : 'rV[C]_(hf_r f - c)) : squeezed m (hf_r f - c) :=
  lsim_squeezed (lsim (hv_A c f) (hv_B Hc) 1%:M (0 *: hv_B Hc) u time V0).
(** havok.py:803-812 on what lsim returns *)
Definition back (cfg : hv_cfg) (f : hv_fit) m w (E : squeezed m w) : result (Model_Havok.dehankeled C) :=
  match E with Two E => to_original cfg f E | One => Err ValueError | Zero => Err IndexError end.

(** ** predict (havok.py:457-488): [V0] is a row index of the stored linear dynamics, or the state itself *)
Inductive v0_arg r := V0Index of int | V0State of 'rV[C]_r.
(** havok.py:473-482 *)
Definition hv_predict (cfg : hv_cfg) (f : hv_fit) (Hc : (h_nc cfg <= hf_r f)%N) m (u : 'M[C]_(m, h_nc cfg)) (time : seq C)
    (v : v0_arg (hf_r f - h_nc cfg)) : result (Model_Havok.dehankeled C) :=
  match v with
  | V0State x => back cfg f (compute_embeddings Hc u time x)
  | V0Index z =>
      match col_index (hf_m f) z with
      | Some i => back cfg f (compute_embeddings Hc u time (row i (hv_linear (h_nc cfg) f)))
      | None => Err IndexError
      end
  end.
(** ** reconstructed_data (havok.py:490-510) *)
Definition hv_reconstructed (cfg : hv_cfg) (f : hv_fit) (Hc : (h_nc cfg <= hf_r f)%N) : result (Model_Havok.dehankeled C) :=
  match col_index (hf_m f) 0 with
  | Some i => back cfg f (compute_embeddings Hc (hv_forcing Hc) (take (hf_m f) (hf_time f)) (row i (hv_linear (h_nc cfg) f)))
  | None => Err IndexError
  end.
End HavokFit.
