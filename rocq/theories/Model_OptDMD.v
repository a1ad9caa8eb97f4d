(** * OptDMD (optdmd.py) *)
From mathcomp Require Import all_ssreflect all_algebra.
From Verif Require Import Py LinAlg Model_Operator.
From Verif Require Model_Utils.
Set Implicit Arguments. Unset Strict Implicit. Unset Printing Implicit Defensive.
Import GRing.Theory Num.Theory.
Local Open Scope ring_scope.

Section Opt.
Variable C : numClosedFieldType.
Variable np : numpy C.
(** scipy.linalg.eig(A, left=True, right=True): values, left vectors, right vectors *)
Variable eig2 : forall r, 'M[C]_r -> 'rV[C]_r * 'M[C]_r * 'M[C]_r.
(** rcond of pinv_diag: 1e4 * eps for double precision (optdmd.py:29-31) *)
Variable tol : C.

(** NumPy's order on complex numbers: by real part, then by imaginary part *)
Definition np_gt (x y : C) : bool := ('Re y < 'Re x) || (('Re x == 'Re y) && ('Im y < 'Im x)).
(** ** pinv_diag (optdmd.py:21-37).  The result array is real: the imaginary part of a reciprocal is dropped. *)
Definition pinv_diag k (x : 'rV[C]_k) : 'rV[C]_k := \row_j if np_gt (x 0 j) tol then 'Re (x 0 j)^-1 else 0.

(** "svd", "evd", or any other string, which no code rejects. optdmd.py:99, 222, 229 *)
Inductive factor := FSvd | FEvd | FOther.

(** what compute_operator leaves in the operator: Uz, Q, Atilde; eigenvalues, left and right vectors.
    optdmd.py:98-102, 129-131 *)
Record opt_op n := OptOp {
  oo_r : nat; oo_P : 'M[C]_(n, oo_r); oo_Q : 'M[C]_(n, oo_r); oo_A : 'M[C]_oo_r;
  oo_eig : option ('rV[C]_oo_r * 'M[C]_(n, oo_r) * 'M[C]_(n, oo_r)) }.

(** ** _compute_eigenquantities (optdmd.py:112-131) *)
Definition opt_eig n r (P Q : 'M[C]_(n, r)) (A : 'M[C]_r) : 'rV[C]_r * 'M[C]_(n, r) * 'M[C]_(n, r) :=
  let: (vals, vl, vr) := eig2 A in
  let right := P *m A *m vr *m diag_mx (pinv_diag vals) in
  let left := Q *m vl *m diag_mx (pinv_diag vals) in
  let m := \row_j (adj left *m right) j j in
  (vals, left *m diag_mx (pinv_diag m), right).

(** ** compute_operator (optdmd.py:74-102).  compute_svd(X, -1) keeps every singular vector. *)
Definition opt_operator n m (fact : factor) (rk : Model_Utils.rank_arg) (X Y : 'M[C]_(n, m)) : opt_op n :=
  let: (Ux, Sx, Vxh) := np_svd np X in
  let Z := Y *m adj Vxh *m diag_mx Sx *m diag_mx (pinv_diag Sx) *m Vxh in
  let Uz := sv_U (compute_svd np Z rk) in
  let Q := adj (adj Uz *m Y *m adj Vxh *m diag_mx (pinv_diag Sx) *m adj Ux) in
  let A := adj Q *m Uz in
  OptOp Uz Q A (match fact with FEvd => Some (opt_eig Uz Q A) | _ => None end).

(** ** The instance (optdmd.py:167-193): _input_space and _output_space *)
Inductive spaces n :=
| NoSpace
| SvdSpace r of 'M[C]_(n, r) & 'M[C]_(n, r)     (* input Q, output Uz *)
| EvdSpace r of 'rV[C]_r & 'M[C]_(n, r).        (* input eigenvalues, output right vectors *)
Arguments NoSpace {n}. Arguments SvdSpace {n r}. Arguments EvdSpace {n r}.
(** optdmd.py:165-177 *)
Record opt_dmd n := OptDmd {
  od_fact : factor; od_rank : Model_Utils.rank_arg; od_tlsq : int;
  od_op : option (opt_op n); od_spaces : spaces n }.
(** optdmd.py:165-177 *)
Definition opt_init n fact rk tlsq : opt_dmd n := OptDmd fact rk tlsq None NoSpace.

(** ** fit (optdmd.py:195-234) *)
Definition opt_fit_xy n m (d : opt_dmd n) (X Y : 'M[C]_(n, m)) : opt_dmd n :=
  let XY := compute_tlsq np X Y (od_tlsq d) in
  let o := opt_operator (od_fact d) (od_rank d) XY.1 XY.2 in
  OptDmd (od_fact d) (od_rank d) (od_tlsq d) (Some o)
    (match od_fact d with
     | FSvd => SvdSpace (oo_Q o) (oo_P o)
     | FEvd => match oo_eig o with Some (e, _, R) => EvdSpace e R | None => od_spaces d end
     | FOther => od_spaces d
     end).
(** optdmd.py:205-234 *)
Definition opt_fit n m (d : opt_dmd n) (S : 'M[C]_(n, m.+1)) : opt_dmd n :=
  opt_fit_xy d (col' ord_max S) (col' ord0 S).

(** ** predict (optdmd.py:236-258); nothing ever sets self._eigs *)
Definition opt_predict n p (d : opt_dmd n) (X : 'M[C]_(n, p)) : result 'M[C]_(n, p) :=
  match od_fact d with
  | FSvd => match od_spaces d with SvdSpace r Q P => Ok (P *m adj Q *m X) | _ => Err AttributeError end
  | FEvd => Err AttributeError
  | FOther => Err UnboundLocalError
  end.

(** ** accessors (optdmd.py:180-193, 260-285) *)
Definition opt_modes n (d : opt_dmd n) : option {r & 'M[C]_(n, r)} :=
  match od_spaces d with NoSpace => None | SvdSpace r _ P => Some (existT _ r P) | EvdSpace r _ R => Some (existT _ r R) end.
(** dmdoperator.py eigenvalues: ValueError until they are computed. optdmd.py:188-189 *)
Definition opt_eigs n (d : opt_dmd n) : result {r & 'rV[C]_r} :=
  match od_op d with
  | Some o => match oo_eig o with Some (e, _, _) => Ok (existT _ (oo_r o) e) | None => Err ValueError end
  | None => Err ValueError
  end.
(** optdmd.py:275-277 *)
Definition opt_fitted n (d : opt_dmd n) : result bool := Err NotImplementedError.
(** optdmd.py:271-273 *)
Definition opt_dynamics n (d : opt_dmd n) : result unit := Err NotImplementedError.
(** optdmd.py:279-281 *)
Definition opt_bitmask n (d : opt_dmd n) : result (list bool) := Err NotImplementedError.
(** optdmd.py:283-285 *)
Definition opt_set_bitmask n (d : opt_dmd n) (b : list bool) : result (opt_dmd n) := Err NotImplementedError.
End Opt.
Arguments NoSpace {C n}. Arguments SvdSpace {C n r}. Arguments EvdSpace {C n r}.
