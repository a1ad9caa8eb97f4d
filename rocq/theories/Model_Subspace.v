(** * SubspaceDMD (subspacedmd.py) *)
From Coq Require Import QArith.
From mathcomp Require Import all_ssreflect all_algebra.
From Verif Require Import Py LinAlg Model_Operator.
From Verif Require Model_Utils.
Set Implicit Arguments. Unset Strict Implicit. Unset Printing Implicit Defensive.
Import GRing.Theory Num.Theory.
Local Open Scope ring_scope.

Section Subspace.
Variable C : numClosedFieldType.
Variable np : numpy C.
(** np.linalg.matrix_rank *)
Variable matrix_rank : forall n m, 'M[C]_(n, m) -> 'I_(minn n m).+1.

(** ** reducedsvd with r=None (subspacedmd.py:17-31), the only use made of it.
    Simplification: the leading columns of the full matrices are those of the reduced ones. *)
Definition reducedsvd n m (X : 'M[C]_(n, m)) : svd_out C n m := svd_trunc np X (matrix_rank X).

(** [M[:, :r]]. subspacedmd.py:31, 89 *)
Definition slice_cols n k (M : 'M[C]_(n, k)) (r : nat) : 'M[C]_(n, minn r k) :=
  \matrix_(i, j) M i (widen_ord (geq_minr r k) j).

(** ** The number of columns kept (subspacedmd.py:85-87).  min(r, svd_rank) is the float only if it is smaller;
    slicing with a float is a TypeError. *)
Definition sub_rank (rk n : nat) (svd_rank : Model_Utils.rank_arg) : result nat :=
  let r := minn rk n in
  match svd_rank with
  | Model_Utils.RInt (BinNums.Zpos p) => Ok (minn r (BinPos.Pos.to_nat p))
  | Model_Utils.RInt _ => Ok r
  | Model_Utils.RNum q =>
      if Model_Utils.Qltb (inject_Z BinNums.Z0) q && Model_Utils.Qltb q (inject_Z (BinInt.Z.of_nat r)) then Err TypeError else Ok r
  end.

(** ** The operator (subspacedmd.py:54-66): exact, neither forward-backward nor regularised *)
Record sub_cfg := SubCfg {
  sc_rank : Model_Utils.rank_arg; sc_rescale : rescale C; sc_sorted : sort_arg; sc_opt : opt_arg }.
(** subspacedmd.py:54-66 *)
Definition sub_op (cfg : sub_cfg) : op_cfg C :=
  OpCfg (sc_rank cfg) true false (sc_rescale cfg) (sc_sorted cfg) None.

(** ** _compute_modes (subspacedmd.py:99-123).  Simplification: the reciprocal of a zero eigenvalue, which
    NumPy makes infinite with a warning, is zero here; no theorem speaks of the mode of a zero eigenvalue. *)
Definition sub_modes (cfg : sub_cfg) n r (M : 'M[C]_(n, r)) (eigs : 'rV[C]_r) (vecs : 'M[C]_r) : 'M[C]_(n, r) :=
  let W := match sc_rescale cfg with
           | RsArr f => diag_mx (sqrt_row (row_of r f)) *m vecs
           | _ => vecs
           end in
  scale_cols (M *m W) (recip eigs).

(** what compute_operator stores; the decomposition is that of the first half of the basis, of [so_k] columns.
    subspacedmd.py:93-97, 122-123 *)
Record sub_out n := SubOut { so_k : nat; so_Uq : 'M[C]_(n + n, so_k); so_op : op_fit C n so_k }.

(** ** compute_operator (subspacedmd.py:68-97); rescale_mode='auto' is not replaced and always refused *)
Definition sub_operator (cfg : sub_cfg) n m (Yp Yf : 'M[C]_(n + n, m)) : result (sub_out n) :=
  let Vp := sv_V (reducedsvd Yp) in
  let O := Yf *m Vp *m adj Vp in
  let Uq := sv_U (reducedsvd O) in
  let! r := sub_rank (matrix_rank O) n (sc_rank cfg) in
  let Q := slice_cols Uq r in
  let Uq1 := usubmx Q in
  let Uq2 := dsubmx Q in
  let d := reducedsvd Uq1 in
  let A := least_square_operator None 0 (sv_U d) (sv_s d) (sv_V d) Uq2 in
  let! ew := eigenquantities np (sub_op cfg) A in
  let M := scale_cols (Uq2 *m sv_V d) (recip (sv_s d)) in
  Ok (SubOut Q (OpFit (sv_U d) (sv_s d) (sv_V d) A ew.1 ew.2 (sub_modes cfg M ew.1 ew.2))).

(** ** fit (subspacedmd.py:172-201).  Simplification: at least four snapshots.
    Columns 0..T-4, 1..T-3, 2..T-2, 3..T-1. *)
Definition shifted (k : nat) n m (S : 'M[C]_(n, m.+4)) : 'M[C]_(n, m.+1) := \matrix_(i, j) S i (inord (k + j)).
(** subspacedmd.py:192-199 *)
Record sub_fit n := SubFit { sf_out : sub_out n; sf_b : 'cV[C]_(of_r (so_op sf_out)) }.
(** subspacedmd.py:179-201 *)
Definition fit_subspace (cfg : sub_cfg) n m (S : 'M[C]_(n, m.+4)) : result (sub_fit n) :=
  let Yp := col_mx (shifted 0 S) (shifted 1 S) in
  let Yf := col_mx (shifted 2 S) (shifted 3 S) in
  let! o := sub_operator cfg Yp Yf in
  let! b := amplitudes np true (sc_opt cfg) S (usubmx (so_Uq o)) (so_op o) in
  Ok (SubFit b).
End Subspace.
