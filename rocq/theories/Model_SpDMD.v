(** * Sparsity-promoting DMD (spdmd.py)

    Exact arithmetic over a closed numeric field; the entries of the ADMM vectors may be NaN
    ([None]), because soft_thresholding_operator divides by |v|. *)
From mathcomp Require Import all_ssreflect all_algebra.
From Verif Require Import Py LinAlg Model_Operator.
Set Implicit Arguments. Unset Strict Implicit. Unset Printing Implicit Defensive.
Import GRing.Theory Num.Theory.
Local Open Scope ring_scope.

Section Model.
Variable C : numClosedFieldType.
Variable np : numpy C.

(** the further routines: np.linalg.cholesky (LinAlgError when the matrix is not positive
    definite) and scipy's spsolve (which warns and returns NaN for a singular matrix: unspecified here).
    Called at spdmd.py:126-157, 326 *)
Record sp_numpy := SpNumpy {
  sp_cholesky : forall r, 'M[C]_r -> result 'M[C]_r;
  sp_spsolve : forall r, 'M[C]_r -> 'cV[C]_r -> 'cV[C]_r }.
Variable sn : sp_numpy.

(** spdmd.py:110-118 *)
Record sp_cfg := SpCfg {
  sp_rho : C; sp_gamma : C; sp_max : nat; sp_abs : C; sp_rel : C;
  sp_enforce : bool; sp_zero : C }.

(** ** soft_thresholding_operator (spdmd.py:13-24), one entry:
    (1 - k) / |v| * v * (|v| > k); for v = 0 the division gives an infinity (or NaN), times 0 NaN *)
Definition soft_threshold (k v : C) : option C :=
  if v == 0 then None else Some ((1 - k) / `|v| * v * (k < `|v|)%R%:R).

(** ** Vectors that may hold NaN. The vectors of spdmd.py:159-217 *)
Definition nvec r := {ffun 'I_r -> option C}.
(** spdmd.py:258-259 *)
Definition of_cV r (v : 'cV[C]_r) : nvec r := [ffun i => Some (v i 0)].
(** What np.linalg.solve gives for NaN, spdmd.py:159-172 *)
Definition nan_all r : nvec r := [ffun=> None].
(** the vector when no entry is NaN. spdmd.py:159-172 *)
Definition clean r (v : nvec r) : option 'cV[C]_r :=
  if [forall i, v i] then Some (\col_i odflt 0 (v i)) else None.

Section Admm.
Variables (cfg : sp_cfg) (r : nat) (L : 'M[C]_r) (q : 'cV[C]_r).

(** spdmd.py:159-172.  Simplification: a NaN in the right-hand side makes the whole solution NaN *)
Definition update_alpha (beta lmbd : nvec r) : nvec r :=
  match clean beta, clean lmbd with
  | Some b, Some l =>
      let uk := b - (sp_rho cfg)^-1 *: l in
      of_cV (np_solve np (adj L) (np_solve np L (q + (sp_rho cfg / 2%:R) *: uk)))
  | _, _ => nan_all r
  end.
(** spdmd.py:174-186 *)
Definition update_beta (alpha lmbd : nvec r) : nvec r :=
  [ffun i => match alpha i, lmbd i with
             | Some a, Some l => soft_threshold (sp_gamma cfg / sp_rho cfg) (a + l / sp_rho cfg)
             | _, _ => None end].
(** spdmd.py:188-200 *)
Definition update_lagrangian (alpha beta lmbd : nvec r) : nvec r :=
  [ffun i => match alpha i, beta i, lmbd i with
             | Some a, Some b, Some l => Some (l + (a - b) * sp_rho cfg)
             | _, _, _ => None end].
(** spdmd.py:202-217 *)
Definition update (beta lmbd : nvec r) : nvec r * nvec r * nvec r :=
  let a := update_alpha beta lmbd in
  let b := update_beta a lmbd in
  (a, b, update_lagrangian a b lmbd).

(** spdmd.py:219-242: any comparison with NaN is false *)
Definition norm2 (v : 'cV[C]_r) : C := sqrtC (frob2 v).
(** spdmd.py:232-242 *)
Definition loop_condition (alpha beta lmbd old : nvec r) : bool :=
  match clean alpha, clean beta, clean lmbd, clean old with
  | Some a, Some b, Some l, Some o =>
      let tol := sqrtC r%:R * sp_abs cfg in
      (norm2 (a - b) < tol + sp_rel cfg * (if norm2 a < norm2 b then norm2 b else norm2 a)) &&
      (sp_rho cfg * norm2 (b - o) < tol + sp_rel cfg * norm2 l)
  | _, _, _, _ => false
  end.

(** spdmd.py:267-277: [fuel] iterations are left; the counter and the last-but-one beta are returned *)
Fixpoint admm_loop (fuel i : nat) (alpha beta lmbd old : nvec r) : nat * nvec r :=
  if loop_condition alpha beta lmbd old then (i, old)
  else match fuel with
       | 0%N => (i, old)
       | n.+1 => let: (a, b, l) := update beta lmbd in admm_loop n i.+1 a b l beta
       end.
(** spdmd.py:256-284 *)
Definition find_zero_amplitudes : nat * {set 'I_r} :=
  let z := of_cV (0 : 'cV[C]_r) in
  let: (a, b, l) := update z z in
  let: (i, old) := admm_loop (sp_max cfg) 0 a b l z in
  (i, [set j | if old j is Some x then `|x| < sp_zero cfg else false]).
End Admm.

(** ** _optimal_amplitudes (spdmd.py:286-329): the columns of the identity at the zeroed positions *)
Definition basis_cols r (Z : {set 'I_r}) : 'M[C]_(r, #|Z|) := \matrix_(i, j) (i == enum_val j)%:R.
(** spdmd.py:300-316 *)
Definition kkt r (P : 'M[C]_r) (Z : {set 'I_r}) : 'M[C]_(r + #|Z|) :=
  block_mx P (basis_cols Z) (adj (basis_cols Z)) 0.
(** spdmd.py:319-329 *)
Definition optimal_sparse (cfg : sp_cfg) r (P : 'M[C]_r) (q : 'cV[C]_r) (Z : {set 'I_r}) : 'cV[C]_r :=
  let x := usubmx (sp_spsolve sn (kkt P Z) (col_mx q 0)) in
  if sp_enforce cfg then \col_i (if i \in Z then 0 else x i 0) else x.

(** ** SpDMD.fit (spdmd.py:126-157): the matrices of dmdbase.py:672-711, whatever opt is.
    [q] for projected modes as in Model_Operator.amplitudes *)
Definition sp_q (exact : bool) n N m (S : 'M[C]_(n, N)) (X : 'M[C]_(n, m)) (o : op_fit C n m) : 'cV[C]_(of_r o) :=
  if exact then opt_q_exact (of_modes o) (of_eigs o) S
  else let: (U, s, Vh) := np_svd np X in
       let V := \matrix_(i, j) (if insub (val j) is Some j' then (adj Vh) i j' else 0) in
       let s' := \row_j (if insub (val j) is Some j' then s 0 j' else 0) in
       opt_q_proj (of_eigs o) (of_vecs o) V s' X.
(** spdmd.py:126-157 *)
Record sp_fit n m := SpFit {
  sf_op : op_fit C n m; sf_iter : nat; sf_zero : {set 'I_(of_r sf_op)}; sf_b : 'cV[C]_(of_r sf_op) }.
(** spdmd.py:126-157 *)
Definition spdmd_fit (cfg : dmd_cfg C) (sc : sp_cfg) n m (S : 'M[C]_(n, m.+1)) : dmd_cfg C * result (sp_fit n m) :=
  let: (cfg1, res) := fit np cfg S in
  (cfg1,
   let! f := res in
   let o := df_op f in
   let P := opt_P (of_modes o) (of_eigs o) m.+1 in
   let q := sp_q (c_exact (d_op cfg)) S (col' ord_max S) o in
   let! L := sp_cholesky sn (P + (sp_rho sc / 2%:R)%:M) in
   let: (i, Z) := find_zero_amplitudes sc L q in
   Ok (@SpFit n m o i Z (optimal_sparse sc P q Z))).
End Model.
