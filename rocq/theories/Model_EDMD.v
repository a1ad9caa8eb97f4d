(** * EDMD (edmd.py), kernelised extended DMD *)
From Coq Require Import QArith.
From mathcomp Require Import all_ssreflect all_algebra.
From Verif Require Import Py LinAlg Model_Operator.
From Verif Require Model_Utils.
Set Implicit Arguments. Unset Strict Implicit. Unset Printing Implicit Defensive.
Import GRing.Theory Num.Theory.
Local Open Scope ring_scope.

Section Edmd.
Variable C : numClosedFieldType.
Variable np : numpy C.
Variable n : nat.
(** the kernel function chosen by kernel_metric and kernel_params *)
Variable kernel : 'cV[C]_n -> 'cV[C]_n -> C.

(** ** sklearn.metrics.pairwise_kernels(A.T, B.T); complex data is refused with ValueError.
    Simplification: complex means having a non-real entry. The kinds sklearn accepts at edmd.py:88-93 *)
Definition real_mx a b (A : 'M[C]_(a, b)) : bool := [forall i, forall j, A i j \is Num.real].
(** edmd.py:88-93 *)
Definition kmat a b (A : 'M[C]_(n, a)) (B : 'M[C]_(n, b)) : 'M[C]_(a, b) := \matrix_(i, j) kernel (col i A) (col j B).
(** Called at edmd.py:88-93, 262-267 *)
Definition pairwise_kernels a b (A : 'M[C]_(n, a)) (B : 'M[C]_(n, b)) : result 'M[C]_(a, b) :=
  if real_mx A && real_mx B then Ok (kmat A B) else Err ValueError.

(** ** _compute_rank_from_svals (edmd.py:163-178): searchsorted(cumsum(energies), svd_rank) + 1.
    [q_of] is the value of a positive Python number.  Simplification: with all energies zero NumPy gets NaN. *)
Definition q_of (q : Q) : C := (BinInt.Z.to_nat (Qnum q))%:R / (BinPos.Pos.to_nat (Qden q))%:R.
(** edmd.py:173 *)
Definition energies k (s : 'rV[C]_k) : 'rV[C]_k := \row_j (s 0 j ^+ 2 / \sum_i s 0 i ^+ 2).
(** edmd.py:173 *)
Definition cumsum k (x : 'rV[C]_k) : 'rV[C]_k := \row_j \sum_(i < k | (i <= j)%N) x 0 i.
(** edmd.py:174 *)
Definition searchsorted k (x : 'rV[C]_k) (v : C) : nat := #|[pred j : 'I_k | x 0 j < v]|.
(** edmd.py:172-178 *)
Definition edmd_rank k (s : 'rV[C]_k) (rk : Model_Utils.rank_arg) : nat :=
  match rk with
  | Model_Utils.RInt (Zpos p) => minn (BinPos.Pos.to_nat p) k
  | Model_Utils.RInt _ => k
  | Model_Utils.RNum q =>
      if Model_Utils.Qltb (inject_Z Z0) q && Model_Utils.Qltb q (inject_Z (Zpos xH))
      then (searchsorted (cumsum (energies s)) (q_of q)).+1 else k
  end.

(** ** _compute_feature_matrix_svd (edmd.py:128-161).
    Simplification: argsort keeps equal singular values in their order. *)
Definition argsort_desc k (s : 'rV[C]_k) (j : 'I_k) : 'I_k := nth j (sort (fun a b => s 0 b <= s 0 a) (enum 'I_k)) j.
(** edmd.py:146-150 *)
Definition svals k (w : 'rV[C]_k) : 'rV[C]_k := \row_j sqrtC (if 'Re (w 0 j) < 0 then - 'Re (w 0 j) else 'Re (w 0 j)).
(** edmd.py:147-148 *)
Definition flipped k (w : 'rV[C]_k) (W : 'M[C]_k) : 'M[C]_k := \matrix_(i, j) (if 'Re (w 0 j) < 0 then - W i j else W i j).
(** edmd.py:158-161 *)
Record fsvd k := FSvd { fs_r : 'I_k.+1; fs_Q : 'M[C]_(k, fs_r); fs_s : 'rV[C]_fs_r }.
(** edmd.py:140-161 *)
Definition feature_svd k (rk : Model_Utils.rank_arg) (G : 'M[C]_k) : fsvd k :=
  let: (w, W) := np_eig np G in
  let s := svals w in
  let o := argsort_desc s in
  let Q := \matrix_(i, j) flipped w W i (o j) in
  let s' := \row_j s 0 (o j) in
  let r := inord (minn (edmd_rank s' rk) k) in
  @FSvd k r (take_cols Q r) (take_cols s' r).

(** what compute_operator stores: _eigenvalues, _modes, _svd_vals, _eigenvectors; and returns: Q. edmd.py:118-126 *)
Record ed_op m := EdOp {
  eo_r : nat; eo_Q : 'M[C]_(m, eo_r); eo_s : 'rV[C]_eo_r; eo_V : 'M[C]_eo_r;
  eo_k : nat; eo_eigs : 'rV[C]_eo_k; eo_modes : 'M[C]_(n, eo_k) }.

(** edmd.py:113: 1e-16 *)
Definition tiny : C := (10%:R ^+ 16)^-1.

(** ** compute_operator (edmd.py:73-126) *)
Definition edmd_operator m (rk : Model_Utils.rank_arg) (X Y : 'M[C]_(n, m)) : result (ed_op m) :=
  let! G := pairwise_kernels X X in
  let! A := pairwise_kernels Y X in
  let f := feature_svd rk G in
  let Sp := np_pinv np (diag_mx (fs_s f)) in
  let K := Sp *m (fs_Q f)^T *m A *m fs_Q f *m Sp in
  let: (w, V) := np_eig np K in
  if V \in unitmx then
    let modes := X *m fs_Q f *m Sp *m (invmx V)^T in
    let keep := [pred j | tiny < `|w 0 j|] in
    Ok (EdOp (fs_Q f) (fs_s f) V (mask_eigs keep w) (mask_modes keep modes))
  else Err LinAlgError.

(** ** Amplitudes (dmdbase.py:672-745) with exact=True *)
Definition edmd_amplitudes (opt : opt_arg) N r (S : 'M[C]_(n, N)) (Phi : 'M[C]_(n, r)) (eigs : 'rV[C]_r) : result 'cV[C]_r :=
  match opt with
  | OptBool true =>
      let P := opt_P Phi eigs N in
      if P \in unitmx then Ok (np_solve np P (opt_q_exact Phi eigs S)) else Err LinAlgError
  | _ =>
      match col_index N (match opt with OptInt z => z | _ => 0 end) with
      | Some j => Ok (np_lstsq np Phi (col j S))
      | None => Err IndexError
      end
  end.

(** ** The instance: constructor arguments, snapshots, operator with _svd_modes, amplitudes. edmd.py:234-245 *)
Record edmd := Edmd {
  ed_rank : Model_Utils.rank_arg; ed_tlsq : int; ed_opt : opt_arg;
  ed_snap : option {N & 'M[C]_(n, N)}; ed_op_of : option {m & ed_op m}; ed_b : option {k & 'cV[C]_k} }.

(** ** __init__ (edmd.py:216-245).  [kernel_params] is None, a dict or something else; [kernel_ok] is whether
    pairwise_kernels runs on the 2x2 dummy. *)
Inductive params := NoParams | Dict | NotDict.
(** edmd.py:216-245 *)
Definition edmd_init rk tlsq opt (kp : params) (kernel_ok : bool) : result edmd :=
  if Qeq_bool (Model_Utils.rank_val rk) (inject_Z Z0) then Err ValueError
  else match kp with
       | NotDict => Err TypeError
       | _ => if kernel_ok then Ok (Edmd rk tlsq opt None None None) else Err ValueError
       end.

(** ** fit (dmd.py:49-82).  The instance is returned also after an exception. *)
Definition edmd_fit_pair (d : edmd) N m (S : 'M[C]_(n, N)) (X Y : 'M[C]_(n, m)) : edmd * result unit :=
  let d1 := Edmd (ed_rank d) (ed_tlsq d) (ed_opt d) (Some (existT _ N S)) (ed_op_of d) None in
  let XY := compute_tlsq np X Y (ed_tlsq d) in
  match edmd_operator (ed_rank d) XY.1 XY.2 with
  | Err e => (d1, Err e)
  | Ok o =>
      let d2 := Edmd (ed_rank d) (ed_tlsq d) (ed_opt d) (Some (existT _ N S)) (Some (existT _ m o)) None in
      match edmd_amplitudes (ed_opt d) S (eo_modes o) (eo_eigs o) with
      | Err e => (d2, Err e)
      | Ok b => (Edmd (ed_rank d) (ed_tlsq d) (ed_opt d) (Some (existT _ N S)) (Some (existT _ m o)) (Some (existT _ (eo_k o) b)), Ok tt)
      end
  end.
(** dmd.py:49-82 *)
Definition edmd_fit (d : edmd) m (S : 'M[C]_(n, m.+1)) := edmd_fit_pair d S (col' ord_max S) (col' ord0 S).
(** dmd.py:49-82 *)
Definition edmd_fit_xy (d : edmd) m (X Y : 'M[C]_(n, m)) := edmd_fit_pair d X X Y.

(** ** eigenfunctions (edmd.py:247-276); multi_dot refuses sizes that do not match *)
Inductive point := NotVector | Vec of 'cV[C]_n.
(** edmd.py:256-276 *)
Definition eigenfunctions (d : edmd) (x : point) : result {r & 'rV[C]_r} :=
  match ed_op_of d with
  | None => Err ValueError
  | Some (existT m o) =>
    match x with
    | NotVector => Err ValueError
    | Vec v =>
      match ed_snap d with
      | None => Err AttributeError
      | Some (existT N Sn) =>
        let! Kx := pairwise_kernels v Sn in
        match @eqP _ N m with
        | ReflectT e => Ok (existT _ (eo_r o) (castmx (erefl 1%N, e) Kx *m eo_Q o *m np_pinv np (diag_mx (eo_s o)) *m eo_V o))
        | ReflectF _ => Err ValueError
        end
      end
    end
  end.

(** ** as_numpy_array (edmd.py:65-71) *)
Definition edmd_as_numpy (d : edmd) : result unit := Err ValueError.
(** eigs and modes (dmdbase.py:228-268), no mask *)
Definition edmd_eigs (d : edmd) : option {k & 'rV[C]_k} :=
  match ed_op_of d with Some (existT _ o) => Some (existT _ (eo_k o) (eo_eigs o)) | None => None end.
(** dmdbase.py:228-242 *)
Definition edmd_modes (d : edmd) : option {k & 'M[C]_(n, k)} :=
  match ed_op_of d with Some (existT _ o) => Some (existT _ (eo_k o) (eo_modes o)) | None => None end.
End Edmd.
