(** * Compressed and randomised DMD (cdmd.py, rdmd.py) and forward-backward DMD (fbdmd.py)

    The routines are those of Model_Operator.v; random draws are arbitrary matrices
    of the requested shape. *)
From mathcomp Require Import all_ssreflect all_algebra.
From Verif Require Import Py LinAlg Model_Operator Model_PrePostAlg.
From Verif Require Model_Utils.
Set Implicit Arguments. Unset Strict Implicit. Unset Printing Implicit Defensive.
Import GRing.Theory Num.Theory.
Local Open Scope ring_scope.

Section Model.
Variable C : numClosedFieldType.
Variable np : numpy C.

(** what compute_operator stores and returns; [U] has one row per compressed measurement. cdmd.py:90-94 *)
Record cd_op n p m := CdOp {
  cd_r : nat; cd_U : 'M[C]_(p, cd_r); cd_s : 'rV[C]_cd_r; cd_V : 'M[C]_(m, cd_r);
  cd_Atilde : 'M[C]_cd_r; cd_eigs : 'rV[C]_cd_r; cd_vecs : 'M[C]_cd_r; cd_modes : 'M[C]_(n, cd_r) }.

(** dmdoperator.py:172-175: the operator keeps [_norm_X = None] (dmdoperator.py:61; only
    DMDOperator.compute_operator sets it, line 80), so that a regularised solve multiplies
    a number by None *)
Definition cd_least_squares (cfg : op_cfg C) n m r (U : 'M[C]_(n, r)) (s : 'rV[C]_r) (V : 'M[C]_(m, r))
    (Y : 'M[C]_(n, m)) : result 'M[C]_r :=
  if c_tik cfg is Some _ then Err TypeError else Ok (least_square_operator None 0 U s V Y).

(** cdmd.py:85-90: the backward operator has its own rank; np.linalg.inv raises LinAlgError,
    a product of different sizes raises ValueError *)
Definition cd_forward_backward (cfg : op_cfg C) p m (Xc Yc : 'M[C]_(p, m)) r (A : 'M[C]_r) : result 'M[C]_r :=
  if c_fb cfg then
    let o := compute_svd np Yc (c_rank cfg) in
    let! Ab := cd_least_squares cfg (sv_U o) (sv_s o) (sv_V o) Xc in
    if Ab \notin unitmx then Err LinAlgError
    else if sv_r o != r then Err ValueError
    else Ok (np_sqrtm np (A *m conform_mx 0 (invmx Ab)))
  else Ok A.

(** ** CDMDOperator.compute_operator (cdmd.py:64-97)
    [rescale_mode='auto'] is not replaced here, unlike in DMDOperator.compute_operator;
    exact modes (cdmd.py:56) use neither [U] nor, without regularisation, the norm. *)
Definition cd_compute_operator (cfg : op_cfg C) n p m (Xc Yc : 'M[C]_(p, m)) (Y : 'M[C]_(n, m)) : result (cd_op n p m) :=
  let o := compute_svd np Xc (c_rank cfg) in
  let! A0 := cd_least_squares cfg (sv_U o) (sv_s o) (sv_V o) Yc in
  let! A := cd_forward_backward cfg Xc Yc A0 in
  let! ew := eigenquantities np cfg A in
  Ok (CdOp (sv_U o) (sv_s o) (sv_V o) A ew.1 ew.2
        (compute_modes cfg 0 Y (0 : 'M_(n, sv_r o)) (sv_s o) (sv_V o) ew.2)).

(** ** The configuration (cdmd.py:153-181): [d_op] with [c_exact = true] *)
Definition cdmd_op_cfg rk rescale fb sorted tik : op_cfg C := OpCfg rk true fb rescale sorted tik.
(** CDMD(svd_rank, tlsq_rank, opt, rescale_mode, forward_backward, sorted_eigs, tikhonov_regularization), cdmd.py:138-181 *)
Definition cdmd_cfg rk tlsq opt rescale fb sorted tik : dmd_cfg C := DmdCfg (cdmd_op_cfg rk rescale fb sorted tik) tlsq opt.

(** ** Compression matrices (cdmd.py:186-219) *)
Inductive compression :=
| CMatrix (p q : nat) (K : 'M[C]_(p, q))
| CUniform | CSparse | CNormal | CSample
| CUnknown. (* any other string, among them the documented-elsewhere 'linear' *)

(** the random draws of one call, for snapshots with [n] rows and [N] columns. cdmd.py:202, 204, 206, 211 *)
Record draws n N := Draws {
  dr_uniform : 'M[C]_(N, n); dr_sparse : 'M[C]_(N, n); dr_normal : 'M[C]_(N, n);
  (* np.random.choice(n, N, replace=False) *)
  dr_choice : 'I_N -> 'I_n }.

(** [C = zeros; C[arange(N), choice] = 1]. cdmd.py:208-212 *)
Definition sample_mx n N (f : 'I_N -> 'I_n) : 'M[C]_(N, n) := \matrix_(i, j) (j == f i)%:R.

(** one matrix per admissible value; drawing without replacement more numbers than there
    are raises ValueError; an unknown string leaves the local unbound; a matrix of
    another width makes the product raise ValueError. cdmd.py:198-212 *)
Definition compression_mx n N (d : draws n N) (c : compression) : result {p : nat & 'M[C]_(p, n)} :=
  match c with
  | CMatrix p q K => if q == n then Ok (existT _ p (conform_mx 0 K)) else Err ValueError
  | CUniform => Ok (existT _ N (dr_uniform d))
  | CSparse => Ok (existT _ N (dr_sparse d))
  | CNormal => Ok (existT _ N (dr_normal d))
  | CSample => if (N <= n)%N then Ok (existT _ N (sample_mx (dr_choice d))) else Err ValueError
  | CUnknown => Err UnboundLocalError
  end.

(** ** CDMD.fit (cdmd.py:221-252) *)
Record cd_fit n p m := CdFit { cf_op : cd_op n p m; cf_b : 'cV[C]_(cd_r cf_op) }.

(** dmdbase.py:672-745 with [_exact] True (cdmd.py:166) *)
Definition cd_amplitudes (opt : opt_arg) n p m (S : 'M[C]_(n, m.+1)) (o : cd_op n p m) : result 'cV[C]_(cd_r o) :=
  amplitudes np true opt S (col' ord_max S)
    (OpFit (0 : 'M_(n, cd_r o)) (cd_s o) (cd_V o) (cd_Atilde o) (cd_eigs o) (cd_vecs o) (cd_modes o)).

(** lines 229-250: from the compressed snapshots on *)
Definition fit_compressed (cfg : dmd_cfg C) n p m (S : 'M[C]_(n, m.+1)) (Sc : 'M[C]_(p, m.+1)) : result (cd_fit n p m) :=
  let XY := compute_tlsq np (col' ord_max Sc) (col' ord0 Sc) (d_tlsq cfg) in
  let! o := cd_compute_operator (d_op cfg) XY.1 XY.2 (col' ord0 S) in
  let! b := cd_amplitudes (d_opt cfg) S o in
  Ok (CdFit b).

(** cdmd.py:226-245 *)
Definition cdmd_fit (cfg : dmd_cfg C) n m (c : compression) (d : draws n m.+1) (S : 'M[C]_(n, m.+1)) : result {p & cd_fit n p m} :=
  let! K := compression_mx d c in
  let! f := fit_compressed cfg S (projT2 K *m S) in
  Ok (existT _ (projT1 K) f).

(** ** RDMD (rdmd.py:65-87)
    The instance keeps the test matrix of its first fit ([rd_test], line 85). *)
Record rd_cfg := RdCfg { rd_cfg_ : dmd_cfg C; rd_oversampling : nat; rd_iters : nat }.
(** rdmd.py:62, 83 *)
Definition test_matrix := option {q : nat & {l : nat & 'M[C]_(q, l)}}.

(** utils.py:245-252: [gen r] is rng.standard_normal((m, r)) from the seed; the product with a
    test matrix of another height raises ValueError *)
Definition rqb_test (cfg : rd_cfg) n N (gen : forall l, 'M[C]_(N, l)) (S : 'M[C]_(n, N)) (t : test_matrix) : {q : nat & {l : nat & 'M[C]_(q, l)}} :=
  match t with
  | Some T => T
  | None => let r := np_rank np (np_svd np S).1.2 n N (c_rank (d_op (rd_cfg_ cfg))) in
            existT _ N (existT _ (r + rd_oversampling cfg)%N (gen (r + rd_oversampling cfg)%N))
  end.

(** the test matrix kept by the instance is left unchanged when compute_rqb raises.
    rdmd.py:65-85 with cdmd.py:226-245 *)
Definition rdmd_fit (cfg : rd_cfg) (qr : qr_fun C) n m (gen : forall l, 'M[C]_(m.+1, l)) (t : test_matrix)
    (S : 'M[C]_(n, m.+1)) : test_matrix * result {p & cd_fit n p m} :=
  let T := rqb_test cfg gen S t in
  if projT1 T != m.+1 then (t, Err ValueError)
  else
    let Om : 'M_(m.+1, projT1 (projT2 T)) := conform_mx 0 (projT2 (projT2 T)) in
    let Q := rqb_Q qr S Om (rd_iters cfg) in
    (Some T, let! f := fit_compressed (rd_cfg_ cfg) S (adj (projT2 Q) *m S) in
             Ok (existT _ (projT1 Q) f)).

(** ** FbDMD (fbdmd.py:18-45): a DMD whose operator is forward-backward *)
Definition fbdmd_cfg rk tlsq exact opt rescale sorted : dmd_cfg C :=
  DmdCfg (OpCfg rk exact true rescale sorted None) tlsq opt.
End Model.
