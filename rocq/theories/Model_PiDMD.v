(** * Physics-informed DMD: pidmd.py and pidmd_utils.py

    Exact arithmetic over a closed numeric field.  Where NumPy would divide by zero
    (and store NaN) the model divides by zero in the field; the theorems assume the divisor is not zero. *)
From mathcomp Require Import all_ssreflect all_algebra.
From Verif Require Import Py LinAlg Model_Operator.
From Verif Require Model_Utils.
Set Implicit Arguments. Unset Strict Implicit. Unset Printing Implicit Defensive.
Import GRing.Theory Num.Theory.
Local Open Scope ring_scope.

Section Model.
Variable C : numClosedFieldType.

(** routines used by pidmd_utils.py besides those of [numpy].
    pidmd_utils.py:10-13 (imports), used at 38, 99, 144-170, 205, 255 *)
Record pi_numpy := PiNp {
  (* scipy.linalg.rq(X, mode="economic"): R, Q *)
  pi_rq : forall n m, 'M[C]_(n, m) -> 'M[C]_(n, minn n m) * 'M[C]_(minn n m, m);
  (* scipy.sparse.linalg.lsqr(T, d)[0] *)
  pi_lsqr : forall n, 'M[C]_n -> 'cV[C]_n -> 'cV[C]_n;
  (* scipy.sparse.linalg.eigs(A, k=r): eigenvalues and eigenvectors *)
  pi_eigs : forall n r, 'M[C]_n -> 'rV[C]_r * 'M[C]_(n, r);
  (* np.argpartition(res, k)[:k]: positions of the k smallest entries *)
  pi_smallest : forall n, 'rV[C]_n -> nat -> {set 'I_n};
  (* exp(-2 pi i / N), the root of unity of numpy.fft for length N *)
  pi_root : nat -> C }.

Variables (np : numpy C) (pn : pi_numpy).

(** np.linalg.lstsq(M, Y)[0] with a two-dimensional right-hand side: column by column. pidmd_utils.py:40, 166, 361 *)
Definition lstsq_mx n r p (M : 'M[C]_(n, r)) (Y : 'M[C]_(n, p)) : 'M[C]_(r, p) :=
  \matrix_(i, j) np_lstsq np M (col j Y) i 0.

(** utils.py:54-91 at (X, svd_rank) *)
Definition rank_of n m (X : 'M[C]_(n, m)) (rk : Model_Utils.rank_arg) : 'I_(minn n m).+1 :=
  np_rank np (np_svd np X).1.2 n m rk.

(** what the functions of pidmd_utils.py return: {"atilde"}, {"A"} or {"eigenvalues", "modes"}.
    pidmd_utils.py:29, 41, 97, 100 *)
Inductive procrustes (n r : nat) :=
| PAtilde of 'M[C]_r
| PA of 'M[C]_n
| PEigs : forall k, 'rV[C]_k -> 'M[C]_(n, k) -> procrustes n r.
Arguments PAtilde {n r}. Arguments PA {n r}. Arguments PEigs {n r k}.

(** pidmd_utils.py:18-29; compute_svd(_, -1) keeps every singular vector *)
Definition unitary_atilde n m r (Ux : 'M[C]_(n, r)) (X Y : 'M[C]_(n, m)) : 'M[C]_r :=
  let Yproj := adj Ux *m Y in let Xproj := adj Ux *m X in
  let: (U, _, Vh) := np_svd np (Yproj *m adj Xproj) in U *m Vh.

(** np.triu. pidmd_utils.py:39 *)
Definition triu n k (M : 'M[C]_(n, k)) : 'M[C]_(n, k) := \matrix_(i, j) if (i <= j)%N then M i j else 0.
(** pidmd_utils.py:32-41 *)
Definition uppertriangular n m (X Y : 'M[C]_(n, m)) : 'M[C]_n :=
  let: (R, Q) := pi_rq pn X in
  let Ut := triu (Y *m adj Q) in
  (lstsq_mx R^T Ut^T)^T.
(** np.flipud (pidmd.py:116) *)
Definition flipud n m (X : 'M[C]_(n, m)) : 'M[C]_(n, m) := \matrix_(i, j) X (rev_ord i) j.
(** np.rot90(_, 2) (pidmd.py:117) *)
Definition rot180 n m (X : 'M[C]_(n, m)) : 'M[C]_(n, m) := \matrix_(i, j) X (rev_ord i) (rev_ord j).
(** pidmd.py:114-117 *)
Definition lowertriangular n m (X Y : 'M[C]_(n, m)) : 'M[C]_n := rot180 (uppertriangular (flipud X) (flipud Y)).

(** manifold_opt: None, an int (a bool is an int), a tuple of ints, an array of shape (k, 2), anything else.
    Simplification: tuples and arrays of floats are not modelled. pidmd_utils.py:54-73 *)
Inductive man_opt := MNone | MInt of int | MTuple of seq int | MArr of seq (int * int) | MOther.

(** pidmd_utils.py:53-73: the widths of each row, all positive *)
Definition band_widths (n : nat) (o : man_opt) : result ('I_n -> nat * nat) :=
  match o with
  | MNone => Ok (fun _ => (1%N, 1%N))
  | MInt d => if 0 < d then Ok (fun _ => (absz d, absz d)) else Err ValueError
  | MTuple l =>
      if (size l == 2%N) && all (fun d => 0 < d) l then Ok (fun _ => (absz (nth 0 l 0%N), absz (nth 0 l 1%N)))
      else Err ValueError
  | MArr l =>
      if (size l == n) && all (fun d => (0 < d.1) && (0 < d.2)) l
      then Ok (fun j : 'I_n => (absz (nth (0, 0) l j).1, absz (nth (0, 0) l j).2)) else Err ValueError
  | MOther => Err ValueError
  end.

(** X[a] with 0 outside. pidmd_utils.py:86 *)
Definition row_at n m (X : 'M[C]_(n, m)) (a : nat) (k : 'I_m) : C := if insub a is Some i then X i k else 0.
(** X[l1:l2]. pidmd_utils.py:86 *)
Definition row_slice n m (X : 'M[C]_(n, m)) (l1 l2 : nat) : 'M[C]_(l2 - l1, m) :=
  \matrix_(i, k) row_at X (l1 + i) k.

(** pidmd_utils.py:80-95: row j solves min ||C x - b|| over the columns [l1, l2) *)
Definition band_l1 (w : nat * nat) (j : nat) : nat := j.+1 - w.1.
(** pidmd_utils.py:83 *)
Definition band_l2 (n : nat) (w : nat * nat) (j : nat) : nat := minn n (j + w.2).
(** pidmd_utils.py:84-95 *)
Definition band_matrix n m (w : 'I_n -> nat * nat) (X Y : 'M[C]_(n, m)) : 'M[C]_n :=
  \matrix_(j, k)
    let l1 := band_l1 (w j) j in let l2 := band_l2 n (w j) j in
    let x := np_lstsq np (row_slice X l1 l2)^T (row j Y)^T in
    if (l1 <= k)%N && (k < l2)%N then (if insub (k - l1)%N is Some i then x i 0 else 0) else 0.
(** pidmd_utils.py:44-100 *)
Definition diagonal n m r (X Y : 'M[C]_(n, m)) (o : man_opt) (compute_A : bool) : result (procrustes n r) :=
  let! w := band_widths n o in
  let A := band_matrix w X Y in
  if compute_A then Ok (PA A) else let e := pi_eigs pn r A in Ok (PEigs e.1 e.2).

(** pidmd_utils.py:103-127.  [k] = min(X.shape), [r <= k].
    symmetric: [atilde] is a float array, so complex entries stored in it lose their imaginary part
    (NumPy casts with a ComplexWarning); skew-symmetric: it is a complex array. *)
Definition sym_C n m (X Y : 'M[C]_(n, m)) : 'M[C]_(minn n m) :=
  let: (U, _, Vh) := np_svd np X in adj U *m Y *m adj Vh.
(** pidmd_utils.py:121-125 *)
Definition sym_upper k (r : 'I_k.+1) (s : 'rV[C]_k) (M : 'M[C]_k) : 'M[C]_r :=
  \matrix_(i, j)
    let i' := widen_ord (leq_ord r) i in let j' := widen_ord (leq_ord r) j in
    if i == j then 'Re (M i' i') / s 0 i'
    else if (i < j)%N then 'Re (s 0 i' * (M j' i')^* + s 0 j' * M i' j') / (s 0 i' ^+ 2 + s 0 j' ^+ 2)
    else 0.
(** pidmd_utils.py:114-118 *)
Definition skew_upper k (r : 'I_k.+1) (s : 'rV[C]_k) (M : 'M[C]_k) : 'M[C]_r :=
  \matrix_(i, j)
    let i' := widen_ord (leq_ord r) i in let j' := widen_ord (leq_ord r) j in
    if i == j then 'i * ('Im (M i' i') / s 0 i')
    else if (i < j)%N then (- (s 0 i' * (M j' i')^*) + s 0 j' * M i' j') / (s 0 i' ^+ 2 + s 0 j' ^+ 2)
    else 0.
(** pidmd_utils.py:110-112, 126 *)
Definition sym_atilde n m (X Y : 'M[C]_(n, m)) (r : 'I_(minn n m).+1) : 'M[C]_r :=
  let a := sym_upper r (np_svd np X).1.2 (sym_C X Y) in
  a + (adj a - diag_mx (\row_i 'Re (a i i))).
(** pidmd_utils.py:110-112, 119 *)
Definition skew_atilde n m (X Y : 'M[C]_(n, m)) (r : 'I_(minn n m).+1) : 'M[C]_r :=
  let a := skew_upper r (np_svd np X).1.2 (sym_C X Y) in
  a + (- adj a - 'i *: diag_mx (\row_i 'Im (a i i))).

(** numpy.fft.fft / ifft along axis 0: multiplication on the left. pidmd_utils.py:11 *)
Definition dft (N : nat) : 'M[C]_N := \matrix_(j, k) pi_root pn N ^+ (j * k).
(** pidmd_utils.py:11 *)
Definition idft (N : nat) : 'M[C]_N := \matrix_(j, k) ((pi_root pn N)^-1 ^+ (j * k) / N%:R).

(** pidmd_utils.py:130-175 *)
Definition flip_eye (n : nat) (flipped : bool) : 'M[C]_n :=
  if flipped then \matrix_(i, j) (i == rev_ord j)%:R else 1%:M.
(** pidmd_utils.py:144-145 *)
Definition toep_Am n : 'M[C]_(n, n + n) :=
  (sqrtC (n + n)%:R)^-1 *: adj (dft (n + n) *m (row_mx 1%:M 0 : 'M[C]_(n, n + n))^T).
(** pidmd_utils.py:146-147 *)
Definition toep_B n m (JX : 'M[C]_(n, m)) : 'M[C]_(m, n + n) :=
  (sqrtC (n + n)%:R)^-1 *: adj (dft (n + n) *m (row_mx (adj JX) 0 : 'M[C]_(m, n + n))^T).
(** pidmd_utils.py:150-161 *)
Definition toep_AAt n : 'M[C]_(n + n) :=
  (idft (n + n) *m (dft (n + n) *m (block_mx 1%:M 0 0 0 : 'M[C]_(n + n)))^T)^T.
(** [L[:-1, :-1]], [y[:-1]], np.append(_, 0). pidmd_utils.py:166-167 *)
Definition drop_last N (L : 'M[C]_N) : 'M[C]_(N.-1) :=
  \matrix_(i, j) L (widen_ord (leq_pred N) i) (widen_ord (leq_pred N) j).
(** pidmd_utils.py:166 *)
Definition drop_last_v N (y : 'cV[C]_N) : 'cV[C]_(N.-1) := \col_i y (widen_ord (leq_pred N) i) 0.
(** pidmd_utils.py:167 *)
Definition append0 N (e : 'cV[C]_(N.-1)) : 'rV[C]_N := \row_i if insub (val i) is Some i' then e i' 0 else 0.
(** pidmd_utils.py:164 *)
Definition toep_y n m (JX Y : 'M[C]_(n, m)) : 'cV[C]_(n + n) :=
  let M := adj (toep_Am n) *m conj_mx Y *m toep_B JX in \col_l (M l l)^*.
(** pidmd_utils.py:165 *)
Definition toep_L n m (JX : 'M[C]_(n, m)) : 'M[C]_(n + n) :=
  adj (hadamard (toep_AAt n) (adj (toep_B JX) *m toep_B JX)^T).
(** pidmd_utils.py:166-167 *)
Definition toep_eigs n m (JX Y : 'M[C]_(n, m)) : 'rV[C]_(n + n) :=
  append0 (np_lstsq np (drop_last (toep_L JX))^T (drop_last_v (toep_y JX Y))).
(** pidmd_utils.py:136-141, 170-175 *)
Definition toeplitz n m (X Y : 'M[C]_(n, m)) (flipped : bool) : 'M[C]_n :=
  let J := flip_eye n flipped in
  let new_A := (idft (n + n) *m (dft (n + n) *m diag_mx (toep_eigs (J *m X) Y))^T)^T in
  ulsubmx new_A *m J.

(** pidmd_utils.py:192-197 and 308-313: what the option does to an eigenvalue;
    np.exp(1j * np.angle(z)) is z / |z|, and 1 when z = 0 *)
Inductive circ_opt := CFree | CUnitary | CSymmetric | CSkew.
(** pidmd_utils.py:193, 309 *)
Definition unit_phase (z : C) : C := if z == 0 then 1 else z / `|z|.
(** pidmd_utils.py:192-197, 308-313 *)
Definition apply_opt (o : circ_opt) (z : C) : C :=
  match o with CFree => z | CUnitary => unit_phase z | CSymmetric => 'Re z | CSkew => 'i * 'Im z end.

(** sums of rows, pidmd_utils.py:190 and 201-204 *)
Definition row_dot n m (F G : 'M[C]_(n, m)) (l : 'I_n) : C := \sum_t F l t * (G l t)^*.
(** pidmd_utils.py:189-190 *)
Definition row_norm2 n m (F : 'M[C]_(n, m)) (l : 'I_n) : C := \sum_t `|F l t| ^+ 2.
(** res, pidmd_utils.py:201-204, 317-320 *)
Definition importance n m (F G : 'M[C]_(n, m)) : 'rV[C]_n := \row_l (`|row_dot F G l| / sqrtC (row_norm2 F l)).
(** eigenvalues[ind_exclude] = 0. pidmd_utils.py:206, 321 *)
Definition zero_out n (S : {set 'I_n}) (e : 'rV[C]_n) : 'rV[C]_n := \row_l if l \in S then 0 else e 0 l.

(** pidmd_utils.py:186-206; np.argpartition raises ValueError when nx - r = nx *)
Definition circ_fX n m (X : 'M[C]_(n, m)) : 'M[C]_(n, m) := dft n *m X.
(** pidmd_utils.py:188 *)
Definition circ_fY n m (Y : 'M[C]_(n, m)) : 'M[C]_(n, m) := dft n *m conj_mx Y.
(** pidmd_utils.py:190-197 *)
Definition circ_eigs n m (X Y : 'M[C]_(n, m)) (o : circ_opt) : 'rV[C]_n :=
  \row_l apply_opt o (row_dot (circ_fX X) (circ_fY Y) l / row_norm2 (circ_fX X) l).
(** pidmd_utils.py:200-205 *)
Definition circ_exclude n m (X Y : 'M[C]_(n, m)) (r : nat) : result {set 'I_n} :=
  if (r == 0)%N then Err ValueError else Ok (pi_smallest pn (importance (circ_fX X) (circ_fY Y)) (n - r)).
(** np.delete along the columns. pidmd_utils.py:212-213 *)
Definition keep_cols p n (S : {set 'I_n}) (M : 'M[C]_(p, n)) : 'M[C]_(p, #|~: S|) := \matrix_(i, j) M i (enum_val j).
(** pidmd_utils.py:178-214 *)
Definition circulant n m r (X Y : 'M[C]_(n, m)) (o : circ_opt) (rk : nat) (compute_A : bool) : result (procrustes n r) :=
  let! ex := circ_exclude X Y rk in
  let e := zero_out ex (circ_eigs X Y o) in
  if compute_A then Ok (PA (dft n *m (scale_cols (idft n *m 1%:M)^T e)^T))
  else Ok (PEigs (keep_cols ex e) (keep_cols ex (dft n *m 1%:M))).

(** pidmd_utils.py:217-269, for at least two measurements.
    [dotT a b]: the entry of X[..].dot(X[..].T) pairing rows a and b (no conjugation) *)
Definition dotT n m (X Y : 'M[C]_(n, m)) (a b : nat) : C := \sum_t row_at X a t * row_at Y b t.
(** T1e, pidmd_utils.py:226 *)
Definition norm2_at n m (X : 'M[C]_(n, m)) (a : nat) : C := \sum_t `|row_at X a t| ^+ 2.
(** pidmd_utils.py:227 *)
Definition tri_T1 n m (X : 'M[C]_(n, m)) : 'M[C]_n := diag_mx (\row_i norm2_at X i).
(** pidmd_utils.py:230-231 *)
Definition tri_T2 n m (X : 'M[C]_(n, m)) : 'M[C]_(n, n.-1) :=
  \matrix_(i, j) if (i == j :> nat) || (i == j.+1 :> nat) then dotT X X j.+1 j else 0.
(** pidmd_utils.py:234-235 *)
Definition tri_T3off n m (X : 'M[C]_(n, m)) : 'M[C]_(n.-1) :=
  \matrix_(i, j) if (j == i.+1 :> nat) then dotT X X i.+2 i else 0.
(** pidmd_utils.py:236-240 *)
Definition tri_T3 n m (X : 'M[C]_(n, m)) : 'M[C]_(n.-1) :=
  diag_mx (\row_i (norm2_at X i + norm2_at X i.+1)) + tri_T3off X + adj (tri_T3off X).
(** pidmd_utils.py:243-245 *)
Definition tri_T n m (X : 'M[C]_(n, m)) : 'M[C]_(n + n.-1) :=
  block_mx (tri_T1 X) (tri_T2 X) (adj (tri_T2 X)) (tri_T3 X).
(** pidmd_utils.py:248-254 *)
Definition tri_d n m (X Y : 'M[C]_(n, m)) : 'cV[C]_(n + n.-1) :=
  col_mx (\col_i dotT X Y i i) (\col_i (dotT X Y i i.+1 + dotT X Y i.+1 i)).
(** pidmd_utils.py:255 *)
Definition re_mx p q (M : 'M[C]_(p, q)) : 'M[C]_(p, q) := \matrix_(i, j) 'Re (M i j).
(** pidmd_utils.py:255 *)
Definition tri_c n m (X Y : 'M[C]_(n, m)) : 'cV[C]_(n + n.-1) := pi_lsqr pn (re_mx (tri_T X)) (re_mx (tri_d X Y)).
(** c[a] with 0 outside, pidmd_utils.py:259-261 *)
Definition vec_at n (c : 'cV[C]_n) (a : nat) : C := if insub a is Some i then c i 0 else 0.
(** pidmd_utils.py:258-262 *)
Definition tri_matrix n (c : 'cV[C]_(n + n.-1)) : 'M[C]_n :=
  \matrix_(i, j)
    ((if i == j then usubmx c i 0 else 0)
     + (if (j == i.+1 :> nat) then vec_at (dsubmx c) i else 0)
     + (if (i == j.+1 :> nat) then vec_at (dsubmx c) j else 0)).
(** pidmd_utils.py:217-269 *)
Definition symtridiagonal n m r (X Y : 'M[C]_(n, m)) (compute_A : bool) : procrustes n r :=
  let A := tri_matrix (tri_c X Y) in
  if compute_A then PA A else let e := pi_eigs pn r A in PEigs e.1 e.2.

(** Columns reshaped to blocks of shape (p, q) in Fortran order: entry a is (a mod p, a div p).
    pidmd_utils.py:281-292 (two-dimensional transform) and 334-345 (along the second axis);
    reshape raises ValueError unless p * q is the number of rows.
    Simplification: the -1 wildcard of reshape is not modelled. *)
Definition fft2_mx (n p q : nat) : 'M[C]_n :=
  (sqrtC n%:R)^-1 *:
  \matrix_(a, b) (pi_root pn p ^+ ((a %% p) * (b %% p)) * pi_root pn q ^+ ((a %/ p) * (b %/ p))).
(** fft_block as a matrix, pidmd_utils.py:334-345 *)
Definition fftb_mx (n p q : nat) : 'M[C]_n :=
  (sqrtC q%:R)^-1 *:
  \matrix_(a, b) if (a %% p == b %% p)%N then pi_root pn q ^+ ((a %/ p) * (b %/ p)) else 0.

(** pidmd_utils.py:294-313 *)
Definition bccb_eig m (o : circ_opt) (f g : 'rV[C]_m) : C :=
  match o with
  | CFree => (\sum_t f 0 t * (g 0 t)^*)^* / \sum_t `|(f 0 t)^*| ^+ 2
  | _ => apply_opt o (np_lstsq np f^T g^T 0 0)
  end.
(** pidmd_utils.py:272-323 *)
Definition bccb n m (X Y : 'M[C]_(n, m)) (p q : nat) (o : circ_opt) (rk : nat) : result 'M[C]_n :=
  if (p * q != n)%N then Err ValueError
  else
    let F := fft2_mx n p q in
    let fX := F *m conj_mx X in let fY := F *m conj_mx Y in
    let d := \row_j bccb_eig o (row j fX) (row j fY) in
    if (rk == 0)%N then Err ValueError
    else
      let d := zero_out (pi_smallest pn (importance fX fY) (n - rk)) d in
      Ok (F *m (scale_cols (adj (F *m 1%:M)) (conj_mx d))^T).

(** pidmd_utils.py:352-361: block j of the transformed operator *)
Definition block_slice n m (p : nat) (M : 'M[C]_(n, m)) (j : nat) : 'M[C]_(p, m) :=
  \matrix_(i, k) row_at M (j * p + i) k.
(** pidmd_utils.py:352-361 *)
Definition bc_block n m (p : nat) (tri : bool) (fX fY : 'M[C]_(n, m)) (j : nat) : 'M[C]_p :=
  let x := block_slice p fX j in let y := block_slice p fY j in
  if tri then band_matrix (fun _ => (2, 2)%N) x y else (lstsq_mx x^T y^T)^T.
(** scipy.linalg.block_diag of q blocks of size p. an entry, 0 outside: pidmd_utils.py:364 *)
Definition mx_at p (M : 'M[C]_p) (i j : nat) : C :=
  if insub i is Some i' then (if insub j is Some j' then M i' j' else 0) else 0.
(** pidmd_utils.py:364 *)
Definition block_diag (n p : nat) (d : nat -> 'M[C]_p) : 'M[C]_n :=
  \matrix_(a, b) if (a %/ p == b %/ p)%N then mx_at (d (a %/ p)%N) (a %% p) (b %% p) else 0.
(** pidmd_utils.py:326-367 *)
Definition block_circulant n m (X Y : 'M[C]_(n, m)) (p q : nat) (tri : bool) : result 'M[C]_n :=
  if (p * q != n)%N then Err ValueError
  else
    let F := fftb_mx n p q in
    let BD := block_diag n (bc_block p tri (F *m X) (F *m Y)) in
    Ok (conj_mx (F *m conj_mx (BD *m (F *m 1%:M)))).

(** the manifold names of pidmd.py:109-179 *)
Inductive manifold :=
| MUnitary | MUpper | MLower | MDiagonal | MSymmetric | MSkew | MToeplitz | MHankel
| MCirculant of circ_opt | MSymTri | MBC | MBCTB | MBCCB of circ_opt | MUnknown.

(** pidmd.py:51-67 *)
Record pi_cfg := PiCfg { pi_man : manifold; pi_opt : man_opt; pi_A : bool; pi_rank : Model_Utils.rank_arg }.

(** pidmd.py:87-96 *)
Definition check_A (cfg : pi_cfg) : result unit := if pi_A cfg then Ok tt else Err ValueError.
(** pidmd.py:155-165 *)
Definition block_shape (o : man_opt) : result (nat * nat) :=
  match o with
  | MNone => Err ValueError
  | MTuple [:: Posz p; Posz q] => Ok (p, q)
  | _ => Err ValueError
  end.

(** pidmd.py:98-181 *)
Definition compute_procrustes n m (cfg : pi_cfg) (X Y : 'M[C]_(n, m)) : result (procrustes n (rank_of X (pi_rank cfg))) :=
  let r := rank_of X (pi_rank cfg) in
  match pi_man cfg with
  | MUnitary => Ok (PAtilde (unitary_atilde (take_cols (np_svd np X).1.1 r) X Y))
  | MUpper => let! _ := check_A cfg in Ok (PA (uppertriangular X Y))
  | MLower => let! _ := check_A cfg in Ok (PA (lowertriangular X Y))
  | MDiagonal => diagonal r X Y (pi_opt cfg) (pi_A cfg)
  | MSymmetric => Ok (PAtilde (sym_atilde X Y r))
  | MSkew => Ok (PAtilde (skew_atilde X Y r))
  | MToeplitz => let! _ := check_A cfg in Ok (PA (toeplitz X Y false))
  | MHankel => let! _ := check_A cfg in Ok (PA (toeplitz X Y true))
  | MCirculant o => circulant r X Y o r (pi_A cfg)
  | MSymTri => Ok (symtridiagonal r X Y (pi_A cfg))
  | MBC =>
      let! _ := check_A cfg in let! s := block_shape (pi_opt cfg) in
      let! A := block_circulant X Y s.1 s.2 false in Ok (PA A)
  | MBCTB =>
      let! _ := check_A cfg in let! s := block_shape (pi_opt cfg) in
      let! A := block_circulant X Y s.1 s.2 true in Ok (PA A)
  | MBCCB o =>
      let! _ := check_A cfg in let! s := block_shape (pi_opt cfg) in
      let! A := bccb X Y s.1 s.2 o r in Ok (PA A)
  | MUnknown => Err ValueError
  end.

(** what compute_operator stores and returns (pidmd.py:183-232); [po_A] is None when A was not computed *)
Record pi_out n m := PiOut {
  po_r : nat; po_U : 'M[C]_(n, po_r); po_s : 'rV[C]_po_r; po_V : 'M[C]_(m, po_r);
  po_Atilde : 'M[C]_po_r; po_A : option 'M[C]_n;
  po_k : nat; po_eigs : 'rV[C]_po_k; po_vecs : 'M[C]_(po_r, po_k); po_modes : 'M[C]_(n, po_k) }.

(** pidmd.py:183-232 *)
Definition eigen_case n m r k (U : 'M[C]_(n, r)) (s : 'rV[C]_r) (V : 'M[C]_(m, r))
    (A : option 'M[C]_n) (e : 'rV[C]_k) (Phi : 'M[C]_(n, k)) : pi_out n m :=
  let W := adj U *m Phi in
  PiOut U s V (W *m diag_mx e *m np_pinv np W) A e W Phi.

(** pidmd.py:183-232 *)
Definition pi_compute_operator n m (cfg : pi_cfg) (X Y : 'M[C]_(n, m)) : result (pi_out n m) :=
  let r := rank_of X (pi_rank cfg) in
  let U := take_cols (np_svd np X).1.1 r in
  let s := take_cols (np_svd np X).1.2 r in
  let V := take_cols (adj (np_svd np X).2) r in
  let! p := compute_procrustes cfg X Y in
  Ok (match p with
      | PAtilde a =>
          let ew := np_eig np a in
          let Phi := U *m ew.2 in
          PiOut U s V a (if pi_A cfg then Some (Phi *m diag_mx ew.1 *m np_pinv np Phi) else None) ew.1 ew.2 Phi
      | PA A => let ew := np_eig np A in eigen_case U s V (Some A) ew.1 ew.2
      | @PEigs _ _ k e Phi => eigen_case U s V None e Phi
      end).

(** PiDMDOperator.A (pidmd.py:69-85); the stored A may be left from an earlier fit: [stored] *)
Definition get_A n (cfg : pi_cfg) (stored : option 'M[C]_n) : result 'M[C]_n :=
  if ~~ pi_A cfg then Err ValueError
  else match stored with None => Err ValueError | Some A => Ok A end.
End Model.
Arguments PAtilde {C n r}. Arguments PA {C n r}. Arguments PEigs {C n r k}.
