(** * DMDOperator (dmdoperator.py), compute_svd / compute_tlsq (utils.py), DMD (dmd.py)
      and the numerical part of DMDBase (dmdbase.py)

    Matrices are over an arbitrary closed numeric field; arithmetic is exact.
    NumPy/SciPy routines are the fields of [numpy]: arbitrary functions about
    which a theorem assumes only the contract (LinAlg.v) of the calls made. *)
From mathcomp Require Import all_ssreflect all_algebra.
From Verif Require Import Py LinAlg.
From Verif Require Model_Utils.
Set Implicit Arguments. Unset Strict Implicit. Unset Printing Implicit Defensive.
Import GRing.Theory Num.Theory.
Local Open Scope ring_scope.

Section Model.
Variable C : numClosedFieldType.

(** Routines called at utils.py:148, 183; dmdoperator.py:87, 213; dmdbase.py:732, 739 *)
Record numpy := Numpy {
  (* np.linalg.svd(X, full_matrices=False): U, s, Vh *)
  np_svd : forall n m, 'M[C]_(n, m) -> 'M[C]_(n, minn n m) * 'rV[C]_(minn n m) * 'M[C]_(minn n m, m);
  (* utils.py:54-91, any rank rule: see Model_Utils.compute_rank and C10 for the real one *)
  np_rank : forall k, 'rV[C]_k -> nat -> nat -> Model_Utils.rank_arg -> 'I_k.+1;
  np_eig : forall r, 'M[C]_r -> 'rV[C]_r * 'M[C]_r;
  np_sqrtm : forall r, 'M[C]_r -> 'M[C]_r;
  np_norm : forall n m, 'M[C]_(n, m) -> C;
  np_lstsq : forall n r, 'M[C]_(n, r) -> 'cV[C]_n -> 'cV[C]_r;
  np_solve : forall r, 'M[C]_r -> 'cV[C]_r -> 'cV[C]_r;
  np_pinv : forall n r, 'M[C]_(n, r) -> 'M[C]_(r, n);
  np_power : C -> rat -> C }.

Variable np : numpy.

(** [M[:, :r]] *)
Definition take_cols n k (M : 'M[C]_(n, k)) (r : 'I_k.+1) : 'M[C]_(n, r) :=
  \matrix_(i, j) M i (widen_ord (leq_ord r) j).

(** ** compute_svd (utils.py:155-191); [V] holds the right singular vectors by column *)
Record svd_out n m := SvdOut {
  sv_r : nat; sv_U : 'M[C]_(n, sv_r); sv_s : 'rV[C]_sv_r; sv_V : 'M[C]_(m, sv_r) }.

(** The slices of utils.py:187-189 *)
Definition svd_trunc n m (X : 'M[C]_(n, m)) (r : 'I_(minn n m).+1) : svd_out n m :=
  let: (U, s, Vh) := np_svd np X in
  SvdOut (take_cols U r) (take_cols s r) (take_cols (adj Vh) r).

(** utils.py:183-191 *)
Definition compute_svd n m (X : 'M[C]_(n, m)) (rk : Model_Utils.rank_arg) : svd_out n m :=
  svd_trunc X (np_rank np (np_svd np X).1.2 n m rk).

(** ** compute_tlsq (utils.py:119-152)
    [tlsq_rank] is a Python int; [V[:rank]] with a negative rank drops rows from the end. *)
Definition slice_rows (t : int) (k : nat) : nat :=
  match t with Posz a => minn a k | Negz a => k - a.+1 end.

(** utils.py:149-150 *)
Definition tlsq_projector k m (Vh : 'M[C]_(k, m)) (r : nat) : 'M[C]_m :=
  \matrix_(i, j) \sum_(l < k | (l < r)%N) (Vh l i)^* * Vh l j.

(** utils.py:145-152 *)
Definition compute_tlsq n m (X Y : 'M[C]_(n, m)) (t : int) : 'M[C]_(n, m) * 'M[C]_(n, m) :=
  if t == 0 then (X, Y)
  else
    let Vh := (np_svd np (col_mx X Y)).2 in
    let VV := tlsq_projector Vh (slice_rows t (minn (n + n) m)) in
    (X *m VV, Y *m VV).

(** ** DMDOperator configuration (dmdoperator.py:46-61) *)
Inductive rescale := RsNone | RsAuto | RsArr of seq C | RsBad.
(** The values of sorted_eigs, dmdoperator.py:215-234 *)
Inductive sort_arg := SoNone | SoAbs | SoReal | SoBad.
(** dmdoperator.py:46-61 *)
Record op_cfg := OpCfg {
  c_rank : Model_Utils.rank_arg; c_exact : bool; c_fb : bool;
  c_rescale : rescale; c_sorted : sort_arg; c_tik : option C }.

(** dmdoperator.py:172-175 and 267-270: regularised singular values *)
Definition reg_s (tik : option C) (normX : C) r (s : 'rV[C]_r) : 'rV[C]_r :=
  match tik with
  | None => s
  | Some l => \row_j (((s 0 j) ^+ 2 + l * normX) * (s 0 j)^-1)
  end.

(** dmdoperator.py:151-176 *)
Definition least_square_operator (tik : option C) (normX : C) n m r
    (U : 'M[C]_(n, r)) (s : 'rV[C]_r) (V : 'M[C]_(m, r)) (Y : 'M[C]_(n, m)) : 'M[C]_r :=
  scale_cols (adj U *m Y *m V) (recip (reg_s tik normX s)).

(** dmdoperator.py:184-211: the scaled operator; [f ** 0.5] is the complex square root *)
Definition row_of (r : nat) (f : seq C) : 'rV[C]_r := \row_j f`_j.
(** np.power(factors, 0.5), dmdoperator.py:196, 262 *)
Definition sqrt_row r (f : 'rV[C]_r) : 'rV[C]_r := \row_j sqrtC (f 0 j).
(** dmdoperator.py:184-211 *)
Definition ahat (rs : rescale) r (A : 'M[C]_r) : result 'M[C]_r :=
  match rs with
  | RsNone => Ok A
  | RsArr f =>
      if size f != r then Err ValueError
      else Ok (diag_mx (recip (sqrt_row (row_of r f))) *m A *m diag_mx (sqrt_row (row_of r f)))
  | RsAuto | RsBad => Err ValueError
  end.

(** dmdoperator.py:215-244: stable sort of (eigenvalue, eigenvector) pairs *)
Definition key_abs (a b : C) : bool := `|a| <= `|b|.
(** dmdoperator.py:223-227 *)
Definition key_real (a b : C) : bool := ('Re a < 'Re b) || (('Re a == 'Re b) && ('Im a <= 'Im b)).
(** dmdoperator.py:215-241 *)
Definition sort_pairs T (so : sort_arg) (l : seq (C * T)) : result (seq (C * T)) :=
  match so with
  | SoNone => Ok l
  | SoAbs => Ok (sort (fun p q => key_abs p.1 q.1) l)
  | SoReal => Ok (sort (fun p q => key_real p.1 q.1) l)
  | SoBad => Err ValueError
  end.

(** zip at dmdoperator.py:240 *)
Definition eig_pairs r (lam : 'rV[C]_r) (W : 'M[C]_r) : seq (C * 'cV[C]_r) :=
  [seq (lam 0 j, col j W) | j <- enum 'I_r].
(** dmdoperator.py:242 *)
Definition pairs_eigs r (l : seq (C * 'cV[C]_r)) : 'rV[C]_r := \row_j (nth (0, 0) l j).1.
(** dmdoperator.py:244 *)
Definition pairs_vecs r (l : seq (C * 'cV[C]_r)) : 'M[C]_r := \matrix_(i, j) (nth (0, 0) l j).2 i 0.

(** dmdoperator.py:178-244 *)
Definition eigenquantities (cfg : op_cfg) r (A : 'M[C]_r) : result ('rV[C]_r * 'M[C]_r) :=
  let! Ah := ahat (c_rescale cfg) A in
  let lw := np_eig np Ah in
  let! l := sort_pairs (c_sorted cfg) (eig_pairs lw.1 lw.2) in
  Ok (pairs_eigs l, pairs_vecs l).

(** dmdoperator.py:246-281 *)
Definition compute_modes (cfg : op_cfg) (normX : C) n m r
    (Y : 'M[C]_(n, m)) (U : 'M[C]_(n, r)) (s : 'rV[C]_r) (V : 'M[C]_(m, r)) (vecs : 'M[C]_r) : 'M[C]_(n, r) :=
  let W := match c_rescale cfg with
           | RsArr f => diag_mx (sqrt_row (row_of r f)) *m vecs
           | _ => vecs
           end in
  if c_exact cfg then scale_cols (Y *m V) (recip (reg_s (c_tik cfg) normX s)) *m W
  else U *m W.

(** what compute_operator stores (_Atilde, _eigenvalues, _eigenvectors, _modes) and returns (U, s, V).
    dmdoperator.py:96-100, 280-281 *)
Record op_fit n m := OpFit {
  of_r : nat; of_U : 'M[C]_(n, of_r); of_s : 'rV[C]_of_r; of_V : 'M[C]_(m, of_r);
  of_Atilde : 'M[C]_of_r; of_eigs : 'rV[C]_of_r; of_vecs : 'M[C]_of_r; of_modes : 'M[C]_(n, of_r) }.

(** dmdoperator.py:93-94: "auto" is replaced by the singular values, for good *)
Definition fix_rescale (cfg : op_cfg) r (s : 'rV[C]_r) : op_cfg :=
  match c_rescale cfg with
  | RsAuto => OpCfg (c_rank cfg) (c_exact cfg) (c_fb cfg) (RsArr [seq s 0 j | j <- enum 'I_r]) (c_sorted cfg) (c_tik cfg)
  | _ => cfg
  end.

(** dmdoperator.py:83-87; np.linalg.inv raises LinAlgError on a singular matrix *)
Definition forward_backward (cfg : op_cfg) (normX : C) n m (X Y : 'M[C]_(n, m)) (r : 'I_(minn n m).+1)
    (A : 'M[C]_r) : result 'M[C]_r :=
  if c_fb cfg then
    let: (U, s, Vh) := np_svd np Y in
    let Ab := least_square_operator (c_tik cfg) normX (take_cols U r) (take_cols s r) (take_cols (adj Vh) r) X in
    if Ab \in unitmx then Ok (np_sqrtm np (A *m invmx Ab)) else Err LinAlgError
  else Ok A.

(** dmdoperator.py:63-100 *)
Definition compute_operator n m (cfg : op_cfg) (X Y : 'M[C]_(n, m)) : op_cfg * result (op_fit n m) :=
  let r := np_rank np (np_svd np X).1.2 n m (c_rank cfg) in
  let: (U0, s0, Vh0) := np_svd np X in
  let U := take_cols U0 r in let s := take_cols s0 r in let V := take_cols (adj Vh0) r in
  let normX := np_norm np X in
  let A0 := least_square_operator (c_tik cfg) normX U s V Y in
  match forward_backward cfg normX X Y A0 with
  | Err x => (cfg, Err x)
  | Ok A =>
      let cfg' := fix_rescale cfg s in
      (cfg', let! ew := eigenquantities cfg' A in
             Ok (OpFit U s V A ew.1 ew.2 (compute_modes cfg' normX Y U s V ew.2)))
  end.

(** ** Amplitudes (dmdbase.py:672-745) *)
Inductive opt_arg := OptBool of bool | OptInt of int.

(** np.vander(eigs, N, True). dmdbase.py:674 *)
Definition vander r (eigs : 'rV[C]_r) (N : nat) : 'M[C]_(r, N) := \matrix_(i, j) eigs 0 i ^+ j.
(** np.multiply. dmdbase.py:676 *)
Definition hadamard n m (A B : 'M[C]_(n, m)) : 'M[C]_(n, m) := \matrix_(i, j) (A i j * B i j).
(** np.conj, dmdbase.py:678 *)
Definition conj_mx n m (A : 'M[C]_(n, m)) : 'M[C]_(n, m) := map_mx conjC A.
(** np.conj(np.diag(A)). dmdbase.py:682-683, 697-698 *)
Definition conj_diag r (A : 'M[C]_r) : 'cV[C]_r := \col_i (A i i)^*.

(** dmdbase.py:676-679 *)
Definition opt_P n r (Phi : 'M[C]_(n, r)) (eigs : 'rV[C]_r) (N : nat) : 'M[C]_r :=
  hadamard (adj Phi *m Phi) (conj_mx (vander eigs N *m adj (vander eigs N))).
(** exact modes: the snapshots themselves. dmdbase.py:681-688 *)
Definition opt_q_exact n r N (Phi : 'M[C]_(n, r)) (eigs : 'rV[C]_r) (S : 'M[C]_(n, N)) : 'cV[C]_r :=
  conj_diag (vander eigs N *m adj S *m Phi).
(** projected modes: [V], [s] of the SVD of the training snapshots [X] with as many
    columns as there are modes, and the eigenvectors of the (scaled) operator.
    compute_svd with the integer rank [r] keeps min(r, number of singular values). dmdbase.py:690-708 *)
Definition opt_q_proj n m r (eigs : 'rV[C]_r) (vecs : 'M[C]_r) (V : 'M[C]_(m, r)) (s : 'rV[C]_r) (X : 'M[C]_(n, m)) : 'cV[C]_r :=
  conj_diag (vander eigs m *m V *m conj_mx (diag_mx s) *m vecs).

(** Python index of a column; [None] is IndexError. dmdbase.py:741 *)
Definition col_index (N : nat) (z : int) : option 'I_N :=
  match z with
  | Posz a => insub a
  | Negz a => if (a.+1 <= N)%N then insub (N - a.+1)%N else None
  end.

(** dmdbase.py:730-745 *)
Definition amplitudes (exact : bool) (opt : opt_arg) n N m (S : 'M[C]_(n, N)) (X : 'M[C]_(n, m))
    (o : op_fit n m) : result 'cV[C]_(of_r o) :=
  match opt with
  | OptBool true =>
      let P := opt_P (of_modes o) (of_eigs o) N in
      let q := if exact then opt_q_exact (of_modes o) (of_eigs o) S
               else let: (U, s, Vh) := np_svd np X in
                    let V := \matrix_(i, j) (if insub (val j) is Some j' then (adj Vh) i j' else 0) in
                    let s' := \row_j (if insub (val j) is Some j' then s 0 j' else 0) in
                    opt_q_proj (of_eigs o) (of_vecs o) V s' X in
      if P \in unitmx then Ok (np_solve np P q) else Err LinAlgError
  | OptBool false | OptInt _ =>
      let z := match opt with OptInt z => z | _ => 0 end in
      match col_index N z with
      | Some j => Ok (np_lstsq np (of_modes o) (col j S))
      | None => Err IndexError
      end
  end.

(** ** DMD.fit (dmd.py:49-82)
    The configuration returned is the one the instance keeps. *)
Record dmd_cfg := DmdCfg { d_op : op_cfg; d_tlsq : int; d_opt : opt_arg }.
(** What dmd.py:66-82 leaves *)
Record dmd_fit n m := DmdFit { df_op : op_fit n m; df_b : 'cV[C]_(of_r df_op) }.

(** dmd.py:66-82 *)
Definition fit_pair n N m (cfg : dmd_cfg) (S : 'M[C]_(n, N)) (X Y : 'M[C]_(n, m)) : dmd_cfg * result (dmd_fit n m) :=
  let XY := compute_tlsq X Y (d_tlsq cfg) in
  let res := compute_operator (d_op cfg) XY.1 XY.2 in
  (DmdCfg res.1 (d_tlsq cfg) (d_opt cfg),
   let! o := res.2 in
   let! b := amplitudes (c_exact (d_op cfg)) (d_opt cfg) S X o in
   Ok (DmdFit b)).

(** one argument: X = snapshots[:, :-1], Y = snapshots[:, 1:]. dmd.py:49-82 *)
Definition fit n m (cfg : dmd_cfg) (S : 'M[C]_(n, m.+1)) := fit_pair cfg S (col' ord_max S) (col' ord0 S).
(** two arguments. dmd.py:49-82 *)
Definition fit_xy n m (cfg : dmd_cfg) (X Y : 'M[C]_(n, m)) := fit_pair cfg X X Y.

(** ** predict (dmd.py:84-94) *)
Definition predict n r p (Phi : 'M[C]_(n, r)) (eigs : 'rV[C]_r) (X : 'M[C]_(n, p)) : 'M[C]_(n, p) :=
  Phi *m diag_mx eigs *m np_pinv np Phi *m X.

(** ** Dynamics and reconstruction (dmdbase.py:271-334) *)
Definition anchor (opt : opt_arg) (T : nat) : int :=
  let z := match opt with OptBool _ => 0 | OptInt z => z end in
  if z < 0 then T%:Z + z else z.
(** dmdbase.py:287-301 *)
Definition dynamics r (eigs : 'rV[C]_r) (b : 'cV[C]_r) (opt : opt_arg) (T : nat)
    (t0 dt : rat) N (ts : 'I_N -> rat) : 'M[C]_(r, N) :=
  \matrix_(i, j) (np_power np (eigs 0 i) ((ts j - t0) / dt - (anchor opt T)%:~R) * b i 0).
(** dmdbase.py:334 *)
Definition reconstruction n r N (Phi : 'M[C]_(n, r)) (D : 'M[C]_(r, N)) : 'M[C]_(n, N) := Phi *m D.

(** ** Bitmask (dmdbase.py:66-68): the active columns, eigenvalues and amplitudes, in order.
    Boolean indexing; the write-back of dmdbase.py:61-64 is modelled in Model_Base. *)
Definition mask_modes n r (mk : pred 'I_r) (Phi : 'M[C]_(n, r)) : 'M[C]_(n, #|mk|) :=
  \matrix_(i, j) Phi i (enum_val j).
(** dmdbase.py:66-68 *)
Definition mask_eigs r (mk : pred 'I_r) (eigs : 'rV[C]_r) : 'rV[C]_#|mk| := \row_j eigs 0 (enum_val j).
(** dmdbase.py:66-68 *)
Definition mask_b r (mk : pred 'I_r) (b : 'cV[C]_r) : 'cV[C]_#|mk| := \col_j b (enum_val j) 0.
(** dmdbase.py:327-334 with the arrays of 66-68 *)
Definition masked_reconstruction n r (mk : pred 'I_r) (Phi : 'M[C]_(n, r)) eigs b opt T t0 dt N (ts : 'I_N -> rat) :=
  reconstruction (mask_modes mk Phi) (dynamics (mask_eigs mk eigs) (mask_b mk b) opt T t0 dt ts).
End Model.
