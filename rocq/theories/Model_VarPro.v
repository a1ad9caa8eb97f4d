(** * VarProDMD (varprodmd.py): variable projection with SciPy's least_squares, fit, forecast, accessors

    Exact arithmetic over a closed numeric field.  [np] holds the NumPy routines (Model_Operator.v); the other externals
    are the fields of [vext].  The number of features is the same in all calls of fit, and the time vector has one entry
    per snapshot (simplifications); warnings are not modelled. *)
From Coq Require Import QArith.
From mathcomp Require Import all_ssreflect all_fingroup all_algebra.
From Verif Require Import Py LinAlg Model_Operator.
From Verif Require Model_Utils.
Set Implicit Arguments. Unset Strict Implicit. Unset Printing Implicit Defensive.
Import Order.TTheory GRing.Theory Num.Theory.
Local Open Scope ring_scope.

Section VarPro.
Variable C : numClosedFieldType.
Variable np : numpy C.

(** Called at varprodmd.py:128, 129, 258, 411 *)
Record vext := VExt {
  (* np.exp *)
  v_exp : C -> C;
  (* scipy.linalg.qr(data, mode="economic", pivoting=True)[-1] *)
  v_qr : forall a b, 'M[C]_(a, b) -> seq 'I_b;
  (* int(m * (1.0 - comp)), in floating point *)
  v_keep : nat -> Q -> nat;
  (* np.argsort of real numbers *)
  v_argsort : forall l, 'rV[C]_l -> 'S_l;
  (* scipy.optimize.least_squares(residual, x0, jacobian): the points at which the residual is evaluated after x0, in
     order, and the point x returned.  The Jacobian looks at the point evaluated last only. *)
  v_lsq : forall q l, ('rV[C]_(l + l) -> 'rV[C]_(q + q)) -> ('rV[C]_(l + l) -> 'M[C]_(q + q, l + l)) -> 'rV[C]_(l + l) ->
          result (seq 'rV[C]_(l + l) * 'rV[C]_(l + l)) }.
Variable x : vext.

(** complex numbers as real and imaginary parts (varprodmd.py:124-126, 136-138, 412, 418-419) *)
Definition pack l (w : 'rV[C]_l) : 'rV[C]_(l + l) := row_mx (map_mx (fun z => 'Re z) w) (map_mx (fun z => 'Im z) w).
(** varprodmd.py:124-126 *)
Definition unpack l (a : 'rV[C]_(l + l)) : 'rV[C]_l := lsubmx a + 'i *: rsubmx a.

(** np.exp(np.outer(time, alphas)). varprodmd.py:128 *)
Definition vexp k l (t : 'rV[C]_k) (w : 'rV[C]_l) : 'M[C]_(k, l) := \matrix_(i, j) v_exp x (t 0 i * w 0 j).

(** ** _OptimizeHelper and _compute_dmd_rho (varprodmd.py:80-152) *)
Record helper k l q := Helper {
  h_phi : 'M[C]_(k, l); h_U : 'M[C]_(k, minn k l); h_sinv : 'rV[C]_(minn k l); h_V : 'M[C]_(l, minn k l);
  h_B : 'M[C]_(l, q); h_rho : 'M[C]_(k, q) }.
(** the reciprocal of a zero singular value is 0 (131-132) *)
Definition evaluate k l q (t : 'rV[C]_k) (Y : 'M[C]_(k, q)) (w : 'rV[C]_l) : helper k l q :=
  let phi := vexp t w in
  let: (U, s, Vh) := np_svd np phi in
  let V := adj Vh in
  Helper phi U (recip s) V (scale_cols V (recip s) *m (adj U *m Y)) (Y - U *m (adj U *m Y)).
(** varprodmd.py:124-138 *)
Definition residual k l q (t : 'rV[C]_k) (Y : 'M[C]_(k, q)) (a : 'rV[C]_(l + l)) : 'rV[C]_(k * q + k * q) :=
  pack (mxvec (h_rho (evaluate t Y (unpack a)))).

(** ** _compute_dmd_jac (varprodmd.py:155-218) *)
Definition jac_j k l q (t : 'rV[C]_k) (h : helper k l q) (j : 'I_l) : 'M[C]_(k, q) :=
  let d_phi := \col_i (t 0 i * h_phi h i j) in
  let outer := d_phi *m row j (h_B h) in
  let a_j := outer - h_U h *m (adj (h_U h) *m outer) in
  let g_j := scale_cols (h_U h) (h_sinv h) *m (adj (row j (h_V h)) *m (adj d_phi *m h_rho h)) in
  - a_j - g_j.
(** the complex Jacobian, flattened; then the real one, lines 206-216 *)
Definition jac_c k l q (t : 'rV[C]_k) (h : helper k l q) : 'M[C]_(k * q, l) := \matrix_(i, j) mxvec (jac_j t h j) 0 i.
(** varprodmd.py:155-218 *)
Definition jacobian k l q (t : 'rV[C]_k) (Y : 'M[C]_(k, q)) (last : 'rV[C]_(l + l)) : 'M[C]_(k * q + k * q, l + l) :=
  let J := jac_c t (evaluate t Y (unpack last)) in
  block_mx (map_mx (fun z => 'Re z) J) (map_mx (fun z => - 'Im z) J) (map_mx (fun z => 'Im z) J) (map_mx (fun z => 'Re z) J).

(** ** _compute_dmd_ev (varprodmd.py:45-77); 1 / 0 is 0 (simplification) *)
Definition dmd_ev n m (X Y : 'M[C]_(n, m)) (rk : Model_Utils.rank_arg) : 'rV[C]_(sv_r (compute_svd np X rk)) :=
  let o := compute_svd np X rk in
  (np_eig np (adj (sv_U o) *m Y *m scale_cols (sv_V o) (recip (sv_s o)))).1.

(** ** _varpro_preprocessing, the derivative and the mean (varprodmd.py:261-264) *)
Definition y_out q m (D : 'M[C]_(q, m.+1)) : 'M[C]_(q, m) := 2%:R^-1 *: (col' ord_max D + col' ord0 D).
(** varprodmd.py:263-264 *)
Definition z_out q m (D : 'M[C]_(q, m.+1)) (t : 'rV[C]_m.+1) : 'M[C]_(q, m) :=
  \matrix_(i, j) ((col' ord0 D - col' ord_max D) i j / (col' ord0 t - col' ord_max t) 0 j).

(** ** select_best_samples_fast (varprodmd.py:303-330) of a 2D array *)
Definition select_best q m (D : 'M[C]_(q, m)) (c : Q) : result (seq 'I_m) :=
  if Model_Utils.Qltb 0 c && Model_Utils.Qltb c 1 then Ok (take (v_keep x m c) (v_qr x D)) else Err ValueError.
(** varprodmd.py:391-398: np.arange of a 2D array with more than one entry raises TypeError *)
Definition indices q m (D : 'M[C]_(q, m)) (c : Q) : result (seq 'I_m) :=
  if Model_Utils.Qltb 0 c then
    let! l := select_best D c in
    if (size l <= 1)%N then Err TypeError else Ok l
  else Ok (enum 'I_m).

(** ** compute_varprodmd_any (varprodmd.py:381-422) *)
Definition picked_time m (t : 'rV[C]_m) (s : seq 'I_m) : 'rV[C]_(size s) := \row_j t 0 (tnth (in_tuple s) j).
(** varprodmd.py:414 *)
Definition picked_rows q m (D : 'M[C]_(q, m)) (s : seq 'I_m) : 'M[C]_(size s, q) := \matrix_(i, j) D j (tnth (in_tuple s) i).
(** the eigenvalues, the coefficients left by the last evaluation, and the residual at the answer.  [r]: res[-1].shape[-1].
    varprodmd.py:410-419 *)
Record optimum m q := Optimum {
  op_l : nat; op_sel : seq 'I_m; op_omegas : 'rV[C]_op_l; op_B : 'M[C]_(op_l, q); op_fun : 'rV[C]_(size op_sel * q + size op_sel * q) }.
(** varprodmd.py:389-419 *)
Definition optimise q m (D : 'M[C]_(q, m.+1)) (t : 'rV[C]_m.+1) (r : nat) (c : Q) : result (optimum m.+1 q) :=
  let w0 := dmd_ev (z_out D t) (y_out D) (Model_Utils.RInt (BinInt.Z.of_nat r)) in
  let! s := indices D c in
  let ts := picked_time t s in
  let Y := picked_rows D s in
  let! a := v_lsq x (residual ts Y) (jacobian ts Y) (pack w0) in
  Ok (Optimum (unpack a.2) (h_B (evaluate ts Y (unpack (last (pack w0) a.1)))) (residual ts Y a.2)).

(** np.linalg.norm(xi, axis=0). varprodmd.py:421 *)
Definition col_norms n l (M : 'M[C]_(n, l)) : 'rV[C]_l := \row_j sqrtC (\sum_i `|M i j| ^+ 2).
(** modes, eigenvalues, amplitudes, the squared norm of opt.fun seen as complex numbers, half the shape of opt.jac.
    A mode of norm 0 is left 0 (simplification: it becomes NaN). varprodmd.py:422 *)
Record vres n m := VRes {
  vr_l : nat; vr_modes : 'M[C]_(n, vr_l); vr_eigs : 'rV[C]_vr_l; vr_b : 'rV[C]_vr_l; vr_sel : seq 'I_m;
  vr_fun2 : C; vr_jac0 : nat }.
(** varprodmd.py:746-753 *)
Definition fun2 p (f : 'rV[C]_(p + p)) : C := \sum_j `|unpack f 0 j| ^+ 2.
(** varprodmd.py:420-422 *)
Definition finish n q m (L : 'M[C]_(n, q)) (o : optimum m q) : vres n m :=
  let xi := L *m (op_B o)^T in
  VRes (scale_cols xi (recip (col_norms xi))) (op_omegas o) (col_norms xi) (op_sel o) (fun2 (op_fun o)) (size (op_sel o) * q).
(** varprodmd.py:388-422 *)
Definition compute_any n m (X : 'M[C]_(n, m.+1)) (t : 'rV[C]_m.+1) (rk : Model_Utils.rank_arg) (use_proj : bool) (c : Q)
    : result (vres n m.+1) :=
  let sv := compute_svd np X rk in
  if use_proj then
    let! o := optimise (diag_mx (sv_s sv) *m adj (sv_V sv)) t (sv_r sv) c in Ok (finish (sv_U sv) o)
  else
    let! o := optimise X t (sv_r sv) c in Ok (finish 1%:M o).

(** ** varprodmd_predict (varprodmd.py:452) *)
Definition predict n l k (Phi : 'M[C]_(n, l)) (w b : 'rV[C]_l) (t : 'rV[C]_k) : 'M[C]_(n, k) :=
  Phi *m \matrix_(i, j) (v_exp x (w 0 i * t 0 j) * b 0 i).

(** ** Sorting (varprodmd.py:567-597).  [SgOther]: any other string; None and the like are as False *)
Inductive vsort := SgFalse | SgTrue | SgAuto | SgReal | SgImag | SgAbs | SgOther.
(** varprodmd.py:568-570 *)
Definition lazy_sort (s : vsort) : vsort := if s is SgTrue then SgAuto else s.
(** np.var. varprodmd.py:577-579 *)
Definition variance l (v : 'rV[C]_l) : C := (\sum_j (v 0 j - (\sum_i v 0 i) / l%:R) ^+ 2) / l%:R.
(** varprodmd.py:572-592 *)
Definition sort_key (s : vsort) l (w : 'rV[C]_l) : result (option 'rV[C]_l) :=
  match s with
  | SgFalse | SgTrue => Ok None
  | SgAuto =>
      let re := map_mx (fun z => 'Re z) w in
      let im := map_mx (fun z => 'Im z) w in
      let ab := map_mx (fun z => `|z|) w in
      let vr := variance re in let vi := variance im in let va := variance ab in
      Ok (Some (if (vi <= vr) && (va <= vr) then re else if va <= vi then im else ab))
  | SgReal => Ok (Some (map_mx (fun z => `|'Re z|) w))
  | SgImag => Ok (Some (map_mx (fun z => `|'Im z|) w))
  | SgAbs => Ok (Some (map_mx (fun z => `|z|) w))
  | SgOther => Err ValueError
  end.
(** varprodmd.py:594 *)
Definition sort_idx l (key : option 'rV[C]_l) (j : 'I_l) : 'I_l :=
  if key is Some v then v_argsort x v (rev_ord j) else j.

(** ** The object.  [vd_px]: the proxy with the full arrays and the mask. dmdbase.py:58-70 *)
Record vpx n := VPx { vp_l : nat; vp_modes : 'M[C]_(n, vp_l); vp_eigs : 'rV[C]_vp_l; vp_amps : 'rV[C]_vp_l; vp_mask : 'I_vp_l -> bool }.
(** modes and eigenvalues of the operator. varprodmd.py:595-596 *)
Record vop n := VOp { vo_l : nat; vo_modes : 'M[C]_(n, vo_l); vo_eigs : 'rV[C]_vo_l }.
(** what fit stores at the end: the amplitudes, the statistics, the indices and the time. varprodmd.py:703-707 *)
Record vfit := VFit { vf_l : nat; vf_b : 'rV[C]_vf_l; vf_fun2 : C; vf_jac0 : nat; vf_m : nat; vf_sel : seq 'I_vf_m; vf_time : 'rV[C]_vf_m }.
(** varprodmd.py:611-686 *)
Record varpro n := VarPro {
  vd_rank : Model_Utils.rank_arg; vd_exact : bool; vd_sort : vsort; vd_comp : Q;
  vd_op : option (vop n); vd_fit : option vfit; vd_px : option (vpx n) }.
(** varprodmd.py:677-686 *)
Definition varpro_init n (rk : Model_Utils.rank_arg) (exact : bool) (so : vsort) (c : Q) : varpro n :=
  VarPro rk exact so c None None None.

(** ** fit (varprodmd.py:688-709) with VarProOperator.compute_operator (529-599): the object afterwards also when an
    exception is raised.  There is no reset of the proxy. *)
Definition fit n (d : varpro n) m (X : 'M[C]_(n, m.+1)) (t : 'rV[C]_m.+1) : varpro n * result unit :=
  match compute_any X t (vd_rank d) (~~ vd_exact d) (vd_comp d) with
  | Err e => (d, Err e)
  | Ok r =>
      let so := lazy_sort (vd_sort d) in
      match sort_key so (vr_eigs r) with
      | Err e => (VarPro (vd_rank d) (vd_exact d) so (vd_comp d) (Some (VOp (vr_modes r) (vr_eigs r))) (vd_fit d) (vd_px d), Err e)
      | Ok key =>
          let idx := sort_idx key in
          (VarPro (vd_rank d) (vd_exact d) so (vd_comp d)
             (Some (VOp (\matrix_(i, j) vr_modes r i (idx j)) (\row_j vr_eigs r 0 (idx j))))
             (Some (VFit (\row_j vr_b r 0 (idx j)) (vr_fun2 r) (vr_jac0 r) (vr_sel r) t)) (vd_px d), Ok tt)
      end
  end.

(** ** forecast (varprodmd.py:711-727): the operator's own arrays *)
Definition forecast n (d : varpro n) k (t : 'rV[C]_k) : result 'M[C]_(n, k) :=
  match vd_op d, vd_fit d with
  | None, _ => Err ValueError
  | Some _, None => Err AttributeError
  | Some o, Some f =>
      match @eqP _ (vf_l f) (vo_l o) with
      | ReflectT e => Ok (predict (vo_modes o) (vo_eigs o) (castmx (erefl, e) (vf_b f)) t)
      | ReflectF _ => Err ValueError
      end
  end.

(** ** The proxy (dmdbase.py:40-45, 236-242, 482-491), made at the first reading; None before the first fit *)
Definition shown n (d : varpro n) : varpro n * result (option (vpx n)) :=
  match vd_op d, vd_px d, vd_fit d with
  | None, _, _ => (d, Ok None)
  | Some _, Some p, _ => (d, Ok (Some p))
  | Some o, None, Some f =>
      match @eqP _ (vf_l f) (vo_l o) with
      | ReflectT e =>
          let p := VPx (vo_modes o) (vo_eigs o) (castmx (erefl, e) (vf_b f)) (fun=> true) in
          (VarPro (vd_rank d) (vd_exact d) (vd_sort d) (vd_comp d) (vd_op d) (vd_fit d) (Some p), Ok (Some p))
      | ReflectF _ => (d, Err IndexError)
      end
  | Some _, None, None => (d, Ok None)
  end.
(** modes_activation_bitmask = mask (dmdbase.py:460-480), an array of booleans *)
Definition set_mask n (d : varpro n) (mask : seq bool) : varpro n * result unit :=
  match vd_op d with
  | None => (d, Err RuntimeError)
  | Some _ =>
      match shown d with
      | (d1, Ok (Some p)) =>
          if size mask == vp_l p then
            (VarPro (vd_rank d1) (vd_exact d1) (vd_sort d1) (vd_comp d1) (vd_op d1) (vd_fit d1)
               (Some (VPx (vp_modes p) (vp_eigs p) (vp_amps p) (fun j => nth false mask j))), Ok tt)
          else (d1, Err ValueError)
      | (d1, Ok None) => (d1, Err AttributeError)
      | (d1, Err e) => (d1, Err e)
      end
  end.
(** ** reconstructed_data (dmdbase.py:327-334) with dynamics (varprodmd.py:802-812), at the time of the last fit *)
Definition masked_sum n (p : vpx n) k (t : 'rV[C]_k) : 'M[C]_(n, k) :=
  \matrix_(i, j) \sum_(l | @vp_mask n p l) vp_modes p i l * (vp_amps p 0 l * v_exp x (vp_eigs p 0 l * t 0 j)).
(** dmdbase.py:327-334 *)
Definition reconstructed n (d : varpro n) : varpro n * result {k & 'M[C]_(n, k)} :=
  match shown d with
  | (d1, Ok (Some p)) => (d1, if vd_fit d is Some f then Ok (existT _ (vf_m f) (masked_sum p (vf_time f))) else Err AttributeError)
  | (d1, Ok None) => (d1, Err AttributeError)
  | (d1, Err e) => (d1, Err e)
  end.

(** ** ssr and selected_samples (varprodmd.py:729-782) *)
Definition ssr n (d : varpro n) : result C :=
  match vd_op d, vd_fit d with
  | None, _ => Err ValueError
  | Some _, None => Err AttributeError
  | Some _, Some f =>
      Ok (sqrtC (vf_fun2 f) / sqrtC (maxn (vf_m f - vf_jac0 f - vf_l f) 1)%:R)
  end.
(** varprodmd.py:779-782 *)
Definition selected_samples n (d : varpro n) : result (option (seq nat)) :=
  if vd_op d is Some _ then Ok (if vd_fit d is Some f then Some [seq nat_of_ord i | i <- vf_sel f] else None) else Err ValueError.
End VarPro.
