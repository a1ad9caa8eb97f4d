(** * LANDO (lando.py): linear and nonlinear disambiguation optimisation

    Exact arithmetic over a closed numeric field; data of [n] features.  [np]: numpy, as in Model_Operator.v. *)
From mathcomp Require Import all_ssreflect all_algebra.
From Verif Require Import Py LinAlg Model_Operator.
From Verif Require Model_EDMD Model_Utils.
Set Implicit Arguments. Unset Strict Implicit. Unset Printing Implicit Defensive.
Import GRing.Theory Num.Theory.
Local Open Scope ring_scope.

Section Kernels.
Variables (C : numClosedFieldType) (n : nat) (ex : C -> C).
Implicit Types x y d : 'cV[C]_n.
(** X.T.dot(y), lando.py:579 *)
Definition dot x y : C := (x^T *m y) 0 0.
(** The squared norm of lando.py:587 *)
Definition norm2 x : C := \sum_i `|x i 0| ^+ 2.

(** a custom kernel with its gradient, if given, or a metric of sklearn with its parameters, None when not given
    (lando.py:457-490).  [ex] is np.exp. *)
Inductive kspec :=
| KCustom of ('cV[C]_n -> 'cV[C]_n -> C) & option ('cV[C]_n -> 'cV[C]_n -> 'rV[C]_n)
| KLinear
| KPoly of option C & option C & option nat
| KRbf of option C.
(** the defaults of sklearn, also in lando.py:567-581 *)
Definition gamma_of (g : option C) : C := if g is Some a then a else n%:R^-1.
(** lando.py:570-573 *)
Definition coef_of (c : option C) : C := if c is Some a then a else 1.
(** lando.py:574-577 *)
Definition degree_of (d : option nat) : nat := if d is Some a then a else 3.

(** kernel_function at one pair of vectors (lando.py:515-532); pairwise_kernels of sklearn.
    Simplifications: a custom function is applied pair by pair; degree is an integer *)
Definition kernel (ks : kspec) x y : C :=
  match ks with
  | KCustom k _ => k x y
  | KLinear => dot x y
  | KPoly g c d => (gamma_of g * dot x y + coef_of c) ^+ degree_of d
  | KRbf g => ex (- gamma_of g * norm2 (x - y))
  end.
(** one row of kernel_gradient (lando.py:534-588) *)
Definition gradient (ks : kspec) d y : result 'rV[C]_n :=
  match ks with
  | KCustom _ (Some g) => Ok (g d y)
  | KCustom _ None => Err ValueError
  | KLinear => Ok d^T
  | KPoly g c dg => Ok ((gamma_of g * (degree_of dg)%:R * (coef_of c + gamma_of g * dot d y) ^+ (degree_of dg).-1) *: d^T)
  | KRbf g => Ok ((- 2%:R * gamma_of g * ex (- gamma_of g * norm2 (d - y))) *: (d - y)^T)
  end.
(** the whole matrices. lando.py:528-532 *)
Definition kmat (ks : kspec) a b (A : 'M[C]_(n, a)) (B : 'M[C]_(n, b)) : 'M[C]_(a, b) :=
  \matrix_(i, j) kernel ks (col i A) (col j B).
(** lando.py:549-588 *)
Definition gmat (ks : kspec) m (D : 'M[C]_(n, m)) y : result 'M[C]_(m, n) :=
  match ks with
  | KCustom _ None => Err ValueError
  | _ => Ok (\matrix_(i, j) match gradient ks (col i D) y with Ok g => g 0 j | Err _ => 0 end)
  end.
End Kernels.
Arguments KLinear {C n}. Arguments KPoly {C n}. Arguments KRbf {C n}. Arguments KCustom {C n}.

Section Lando.
Variables (C : numClosedFieldType) (np : numpy C) (n : nat) (ex : C -> C).
Variable ks : kspec C n.
(** the kernel returns an array of complex dtype *)
Variable cplx : bool.
Local Notation K := (kmat ex ks).

(** ** LANDOOperator: the dictionary, its Cholesky factor, P and the weights (lando.py:32-61).
    In the offline mode the last two are 0 until the end of compute_operator. *)
Record lop := LOp {
  lo_m : nat; lo_D : 'M[C]_(n, lo_m); lo_C : 'M[C]_lo_m; lo_P : 'M[C]_lo_m; lo_W : 'M[C]_(n, lo_m) }.

(** np.linalg.lstsq at lando.py:249, 333, 334, 373 *)
Definition lstsq_mx a b p (A : 'M[C]_(a, b)) (H : 'M[C]_(a, p)) : 'M[C]_(b, p) :=
  \matrix_(i, j) np_lstsq np A (col j H) i 0.

(** _cholesky_step (lando.py:320-341): k_tilde, s, pi, kxx, delta *)
Definition cholesky_step (o : lop) (x : 'cV[C]_n) : 'cV[C]_(lo_m o) * 'cV[C]_(lo_m o) * 'cV[C]_(lo_m o) * C * C :=
  let kt := K (lo_D o) x in
  let s := np_lstsq np (lo_C o) kt in
  let pi := np_lstsq np (adj (lo_C o)) s in
  let kxx := kernel ex ks x x in
  (kt, s, pi, kxx, kxx - (adj kt *m pi) 0 0).

(** max(0, abs(sqrt(z))) of line 314: the square root of a negative number of real dtype is NaN, and max keeps 0 *)
Definition corner (z : C) : C := if ~~ cplx && (z < 0) then 0 else sqrtC `|z|.
(** _update_cholesky (lando.py:302-318); [s ** 2] has no modulus *)
Definition update_cholesky m (A : 'M[C]_m) (s : 'cV[C]_m) (kxx : C) : 'M[C]_(m + 1) :=
  block_mx A 0 (adj s) (corner (kxx - \sum_i s i 0 ^+ 2))%:M.

(** one snapshot of the loop (lando.py:198-238) with _update_online (lando.py:343-378); x / 0 is 0 (simplification) *)
Definition absorb (online : bool) (tol : C) (o : lop) (xy : 'cV[C]_n * 'cV[C]_n) : lop :=
  let: (kt, s, pi, kxx, delta) := cholesky_step o xy.1 in
  let err := xy.2 - lo_W o *m kt in
  if tol < `|delta| then
    let u := delta^-1 *: err in
    LOp (row_mx (lo_D o) xy.1) (update_cholesky (lo_C o) s kxx)
        (if online then block_mx (lo_P o) 0 0 1%:M else 0)
        (if online then row_mx (lo_W o - u *m adj pi) u else 0)
  else if online then
    let h := (1 + (adj pi *m lo_P o *m pi) 0 0)^-1 *: (adj pi *m lo_P o) in
    LOp (lo_D o) (lo_C o) (lo_P o *m (1%:M - pi *m h))
        (lo_W o + (lstsq_mx (lo_C o *m adj (lo_C o))^T (err *m h)^T)^T)
  else o.

(** the first snapshot (lando.py:184-196).  Simplification: the square root of a negative number is the complex one *)
Definition begin_with (online : bool) (xy : 'cV[C]_n * 'cV[C]_n) : lop :=
  let c := sqrtC (kernel ex ks xy.1 xy.1) in
  @LOp 1 xy.1 c%:M (if online then 1%:M else 0) (if online then (c ^+ 2)^-1 *: xy.2 else 0).

(** ** compute_operator (lando.py:162-251): [order] is parsing_inds, [old] the operator so far *)
Definition weigh (lstsq : bool) N (X Y : 'M[C]_(n, N)) (o : lop) : lop :=
  let Km := K (lo_D o) X in
  LOp (lo_D o) (lo_C o) (lo_P o) (if lstsq then (lstsq_mx Km^T Y^T)^T else Y *m np_pinv np Km).
(** lando.py:176-251 *)
Definition compute_operator (online : bool) (tol : C) (lstsq : bool) (updating : bool) (old : option lop) N
    (order : seq 'I_N) (X Y : 'M[C]_(n, N)) : result lop :=
  if updating && ~~ online then Err ValueError
  else
    let pairs := [seq (col i X, col i Y) | i <- order] in
    let! start :=
      if updating then (if old is Some o then Ok (o, pairs) else Err TypeError)
      else (if pairs is p :: rest then Ok (begin_with online p, rest) else Err IndexError) in
    let o := foldl (absorb online tol) start.1 start.2 in
    Ok (if online then o else weigh lstsq X Y o).

(** ** compute_linear_operator (lando.py:253-301) *)
Record lin := Lin {
  li_r : nat; li_k : nat; li_eigs : 'rV[C]_li_k; li_vecs : 'M[C]_(li_r, li_k); li_modes : 'M[C]_(n, li_k);
  li_At : 'M[C]_li_r }.
(** the positions of the eigenvalues that are kept, in the order of the result; equal moduli keep their order
    (simplification). lando.py:284, 289 *)
Definition kept_eigs r (w : 'rV[C]_r) : seq 'I_r :=
  sort (fun a b => `|w 0 b| <= `|w 0 a|) [seq j <- enum 'I_r | (10%:R ^+ 16)^-1 < `|w 0 j|].
(** lando.py:286, 291 *)
Definition pick_cols a r (M : 'M[C]_(a, r)) (l : seq 'I_r) : 'M[C]_(a, size l) := \matrix_(i, j) M i (tnth (in_tuple l) j).
(** [sc]: x_rescale, one factor per feature.  The analysis, and the operator A. lando.py:271-272 *)
Definition scaled_gradient (o : lop) (fp : 'cV[C]_n) (sc : 'cV[C]_n) : result 'M[C]_(lo_m o, n) :=
  let! G := gmat ex ks (lo_D o) fp in
  Ok (\matrix_(i, j) (G i j * sc j 0)).
(** lando.py:273-301 *)
Definition linear_operator (rk : Model_Utils.rank_arg) (o : lop) (fp sc : 'cV[C]_n) : result (lin * 'M[C]_n) :=
  let! G := scaled_gradient o fp sc in
  let sv := compute_svd np G^T rk in
  let A := lo_W o *m G in
  let At := adj (sv_U sv) *m A *m sv_U sv in
  let: (w, V) := np_eig np At in
  let l := kept_eigs w in
  let e := pick_cols w l in
  let vecs := pick_cols V l in
  Ok (Lin e vecs (lo_W o *m sv_V sv *m diag_mx (sv_s sv) *m vecs *m diag_mx (recip e)) At, A).

(** ** The LANDO object *)
(** x_rescale: a number, an array with its shape and entries, or something else. lando.py:466, 975-983 *)
Inductive rescale := RsNum of C | RsArray of seq nat & 'cV[C]_n | RsOther.
(** Constructor arguments, lando.py:457-471 *)
Record lcfg := LCfg {
  lc_rank : Model_Utils.rank_arg; lc_tlsq : int; lc_opt : opt_arg; lc_tol : C; lc_online : bool; lc_permute : bool;
  lc_lstsq : bool }.
(** what DMDBase shows: modes, eigenvalues and amplitudes behind the activation mask, all active (dmdbase.py:39-45) *)
Record px := Px { px_k : nat; px_modes : 'M[C]_(n, px_k); px_eigs : 'rV[C]_px_k; px_amps : 'cV[C]_px_k }.
(** lando.py:489-513 *)
Record lando := Lando {
  la_cfg : lcfg; la_scale : rescale; la_shape : seq nat; la_snap : option {N & 'M[C]_(n, N)};
  la_op : option lop; la_lin : option lin; la_A : option 'M[C]_n;
  la_fix : option ('cV[C]_n * 'cV[C]_n); la_wantA : bool; la_b : option {k & 'cV[C]_k}; la_px : option px }.
(** lando.py:457-513 *)
Definition lando_init (cfg : lcfg) (sc : rescale) : lando :=
  Lando cfg sc [::] None None None None None false None None.

(** the factors in use (lando.py:958-967) *)
Definition factors (sc : rescale) : 'cV[C]_n :=
  match sc with RsNum a => const_mx a | RsArray _ v => v | RsOther => 0 end.
(** lando.py:958-967 *)
Definition rescaled (sc : rescale) a (X : 'M[C]_(n, a)) : 'M[C]_(n, a) := \matrix_(i, j) (X i j * factors sc i 0).
(** _check_x_rescale (lando.py:966-983); [shape]: snapshots_shape.  The array is flattened. *)
Definition check_rescale (sc : rescale) (shape : seq nat) : result rescale :=
  match sc with
  | RsOther => Err TypeError
  | RsNum a => Ok (RsNum a)
  | RsArray sh v => if sh == shape then Ok (RsArray [:: n] v) else Err ValueError
  end.

(** the order of the snapshots (lando.py:177-180); [shuffle]: np.random.shuffle *)
Variable shuffle : forall N, seq 'I_N -> seq 'I_N.
Definition parsing (permute : bool) N : seq 'I_N := if permute then @shuffle N (enum 'I_N) else enum 'I_N.

(** ** fit (lando.py:759-791): the object afterwards also when an exception is raised.
    [shape]: the shape of one snapshot, [S] the flattened snapshots.  The number of features is the same in all
    calls (simplification); warnings and the time dictionaries are not modelled. *)
Definition fit_pair (d : lando) (shape : seq nat) N (S : 'M[C]_(n, N)) m (X Y : 'M[C]_(n, m)) : lando * result unit :=
  let d0 sc := Lando (la_cfg d) sc shape (Some (existT _ N S)) (la_op d) (la_lin d) (la_A d) (la_fix d) (la_wantA d) None None in
  match check_rescale (la_scale d) shape with
  | Err e => (d0 (la_scale d), Err e)
  | Ok sc =>
      let cfg := la_cfg d in
      let XY := compute_tlsq np X Y (lc_tlsq cfg) in
      match compute_operator (lc_online cfg) (lc_tol cfg) (lc_lstsq cfg) false (la_op d) (parsing (lc_permute cfg) m)
              (rescaled sc XY.1) XY.2 with
      | Err e => (d0 sc, Err e)
      | Ok o => (Lando cfg sc shape (Some (existT _ N S)) (Some o) (la_lin d) (la_A d) (la_fix d) (la_wantA d) None None, Ok tt)
      end
  end.
(** lando.py:773-775 *)
Definition fit (d : lando) (shape : seq nat) N (S : 'M[C]_(n, N.+1)) := fit_pair d shape S (col' ord_max S) (col' ord0 S).
(** lando.py:776-780 *)
Definition fit_xy (d : lando) (shape : seq nat) N (X Y : 'M[C]_(n, N)) := fit_pair d shape X X Y.

(** ** The model (lando.py:617-660) *)
Definition sparse_dictionary (d : lando) : result {m & 'M[C]_(n, m)} :=
  if la_op d is Some o then
    Ok (existT _ (lo_m o) (\matrix_(i, j) (lo_D o i j / factors (la_scale d) i 0)))
  else Err ValueError.
(** lando.py:656-660 *)
Definition model_of (o : lop) (sc : rescale) a (X : 'M[C]_(n, a)) : 'M[C]_(n, a) := lo_W o *m K (lo_D o) (rescaled sc X).
(** [shape]: the shape of one column of the argument. lando.py:644-660 *)
Definition f (d : lando) (shape : seq nat) a (X : 'M[C]_(n, a)) : result 'M[C]_(n, a) :=
  if la_op d is Some o then if shape == la_shape d then Ok (model_of o (la_scale d) X) else Err ValueError
  else Err ValueError.

(** ** Accessors of DMDBase: modes, eigs, amplitudes (dmdbase.py:227-242, 392-405, 482-491) *)
Definition with_px (d : lando) (p : option px) : lando :=
  Lando (la_cfg d) (la_scale d) (la_shape d) (la_snap d) (la_op d) (la_lin d) (la_A d) (la_fix d) (la_wantA d) (la_b d) p.
(** the proxy is made at the first access, from the operator and the stored amplitudes; a mask of another length
    raises IndexError. dmdbase.py:227-242 *)
Definition shown (d : lando) : lando * result (option px) :=
  match la_lin d with
  | None => (d, Ok None)
  | Some l =>
      match la_px d, la_b d with
      | Some p, _ => (d, Ok (Some p))
      | None, Some (existT k b) =>
          match @eqP _ k (li_k l) with
          | ReflectT e => let p := Px (li_modes l) (li_eigs l) (castmx (e, erefl) b) in (with_px d (Some p), Ok (Some p))
          | ReflectF _ => (d, Err IndexError)
          end
      | None, None => (d, Ok None)
      end
  end.
(** self.modes and self.eigs, as _compute_amplitudes sees them; the operator's own before the first amplitudes.
    dmdbase.py:227-242 *)
Definition seen (d : lando) : lando * result (option {k & ('M[C]_(n, k) * 'rV[C]_k)%type}) :=
  match shown d with
  | (d', Ok (Some p)) => (d', Ok (Some (existT _ (px_k p) (px_modes p, px_eigs p))))
  | (d', Ok None) => (d', Ok (if la_lin d is Some l then Some (existT _ (li_k l) (li_modes l, li_eigs l)) else None))
  | (d', Err e) => (d', Err e)
  end.

(** ** analyze_fixed_point (lando.py:793-833) and the same steps in update (873-882).  [A] is kept from an earlier
    analysis when it is not computed. *)
Definition analyze_at (d : lando) (o : lop) (fp : 'cV[C]_n) (wantA : bool) : lando * result unit :=
  let d1 := Lando (la_cfg d) (la_scale d) (la_shape d) (la_snap d) (la_op d) (la_lin d) (la_A d)
              (Some (fp, model_of o (la_scale d) fp)) wantA (la_b d) (la_px d) in
  match linear_operator (lc_rank (la_cfg d)) o (rescaled (la_scale d) fp) (factors (la_scale d)) with
  | Err e => (d1, Err e)
  | Ok (l, A) =>
      let d2 := Lando (la_cfg d) (la_scale d) (la_shape d) (la_snap d) (la_op d) (Some l) (if wantA then Some A else la_A d)
                  (Some (fp, model_of o (la_scale d) fp)) wantA (la_b d) (la_px d) in
      match la_snap d, seen d2 with
      | Some (existT N Sn), (d3, Ok (Some (existT k (Phi, e)))) =>
          match Model_EDMD.edmd_amplitudes np (lc_opt (la_cfg d)) Sn Phi e with
          | Ok b => (Lando (la_cfg d3) (la_scale d3) (la_shape d3) (la_snap d3) (la_op d3) (la_lin d3) (la_A d3) (la_fix d3)
                       (la_wantA d3) (Some (existT _ k b)) (la_px d3), Ok tt)
          | Err e => (d3, Err e)
          end
      | _, (d3, Err e) => (d3, Err e)
      | _, (d3, _) => (d3, Err AttributeError)
      end
  end.
(** lando.py:811-833 *)
Definition analyze_fixed_point (d : lando) (shape : seq nat) (fp : 'cV[C]_n) (wantA : bool) : lando * result unit :=
  match la_op d with
  | None => (d, Err ValueError)
  | Some o => if shape == la_shape d then analyze_at d o fp wantA else (d, Err ValueError)
  end.

(** ** bias, linear, nonlinear (lando.py:676-757); [None]: linear warns and returns None *)
Definition bias (d : lando) : result 'cV[C]_n :=
  match la_lin d, la_fix d with Some _, Some (_, c) => Ok c | _, _ => Err ValueError end.
(** lando.py:693-707 *)
Definition linear (d : lando) : result (option 'M[C]_n) := if la_lin d is Some _ then Ok (la_A d) else Err ValueError.
(** lando.py:745 *)
Definition add_col a (v : 'cV[C]_n) (X : 'M[C]_(n, a)) : 'M[C]_(n, a) := \matrix_(i, j) (X i j + v i 0).
(** lando.py:724-757 *)
Definition nonlinear (d : lando) (shape : seq nat) a (X : 'M[C]_(n, a)) : result 'M[C]_(n, a) :=
  match la_lin d, la_fix d, la_op d with
  | Some _, Some (fp, c), Some o =>
      if shape == la_shape d then
        let! G := scaled_gradient o (rescaled (la_scale d) fp) (factors (la_scale d)) in
        let! fX := f d shape (add_col fp X) in
        Ok (add_col (- c) fX - lo_W o *m G *m X)
      else Err ValueError
  | _, _, _ => Err ValueError
  end.

(** ** update (lando.py:835-886) *)
Definition update_pair (d : lando) m (X Y : 'M[C]_(n, m)) : lando * result unit :=
  match la_op d with
  | None => (d, Err ValueError)
  | Some _ =>
      let cfg := la_cfg d in
      let XY := compute_tlsq np X Y (lc_tlsq cfg) in
      match compute_operator (lc_online cfg) (lc_tol cfg) (lc_lstsq cfg) true (la_op d) (parsing (lc_permute cfg) m)
              (rescaled (la_scale d) XY.1) XY.2 with
      | Err e => (d, Err e)
      | Ok o =>
          let d1 := Lando cfg (la_scale d) (la_shape d) (la_snap d) (Some o) (la_lin d) (la_A d) (la_fix d) (la_wantA d) (la_b d) (la_px d) in
          match la_lin d, la_fix d with
          | Some _, Some (fp, _) => analyze_at d1 o fp (la_wantA d)
          | _, _ => (d1, Ok tt)
          end
      end
  end.
(** lando.py:855-857 *)
Definition update (d : lando) N (S : 'M[C]_(n, N.+1)) := update_pair d (col' ord_max S) (col' ord0 S).
(** lando.py:858-864 *)
Definition update_xy (d : lando) N (X Y : 'M[C]_(n, N)) := update_pair d X Y.

(** ** predict with continuous=False (lando.py:936-944): the columns are stored as real numbers.
    A model fitted on snapshots of one axis; for others [f] refuses the flat columns. *)
Fixpoint predict_steps (d : lando) (x0 : 'cV[C]_n) (k : nat) : result (seq 'cV[C]_n) :=
  if k is k'.+1 then
    let! y := f d [:: n] x0 in
    let! rest := predict_steps d (map_mx (fun z => 'Re z) y) k' in
    Ok (x0 :: rest)
  else Ok [:: x0].
(** lando.py:909-916, 939-944 *)
Definition predict_discrete (d : lando) (shape : seq nat) (x0 : 'cV[C]_n) (tend : int) : result (seq 'cV[C]_n) :=
  match la_op d with
  | None => Err ValueError
  | Some _ =>
      if shape == la_shape d then
        match tend with
        | Negz _ => Err ValueError
        | Posz 0 => Err IndexError
        | Posz k.+1 => predict_steps d (map_mx (fun z => 'Re z) x0) k
        end
      else Err ValueError
  end.
End Lando.
