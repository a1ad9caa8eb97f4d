(** * BOPDMD (bopdmd.py): constrained variable projection, bagging, fit, forecast

    Exact arithmetic over a closed numeric field.  [np] holds the NumPy routines (Model_Operator.v).
    The other externals are the fields of [ext]: the exponential, SciPy's pivoted QR, the order in which a
    Python set is emptied, the memory returned by np.empty, and the random generator. *)
From Coq Require Import QArith.
From mathcomp Require Import all_ssreflect all_fingroup all_algebra.
From Verif Require Import Py LinAlg Model_Operator.
From Verif Require Model_Utils.
Set Implicit Arguments. Unset Strict Implicit. Unset Printing Implicit Defensive.
Import GRing.Theory Num.Theory.
Local Open Scope ring_scope.

Section Bop.
Variable C : numClosedFieldType.
Variable np : numpy C.

(** bopdmd.py:14-26 (imports), used at 304, 320, 369, 391, 499, 624, 1606, 1610 *)
Record ext := Ext {
  (* np.exp *)
  x_exp : C -> C;
  (* scipy.linalg.qr(J, mode="economic", pivoting=True): Q, R, pivots.
     Simplification: at least as many rows as columns *)
  x_qr : forall a b, 'M[C]_(a, b) -> 'M[C]_(a, b) * 'M[C]_b * 'S_b;
  (* the element removed by set.pop from the set of the listed indexes, which is not empty *)
  x_pop : forall r, 'I_r -> seq 'I_r -> 'I_r;
  (* np.empty(r) *)
  x_empty : forall r, 'rV[C]_r;
  (* the k-th call of np.random.choice(np.arange(M), size=b, replace=False) *)
  x_choice : nat -> forall M : nat, nat -> seq 'I_M;
  (* the k-th call of np.random.randn(r) *)
  x_randn : nat -> forall r, 'rV[C]_r }.
Variable x : ext.

(** ** Constraints.  A set of strings is given by which names it holds; [c_other]: any unsupported name.
    bopdmd.py:88-99, 1302-1352 *)
Record cset := CSet { c_stable : bool; c_imag : bool; c_conj : bool; c_other : bool }.
(** bopdmd.py:299-300 (function), 302-356 (set) *)
Inductive constr := ConFun of (forall r, 'rV[C]_r -> 'rV[C]_r) | ConSet of cset.

(** np.argmin: the first index of a smallest entry. bopdmd.py:313, 325 *)
Definition argmin r (f : 'I_r -> C) : option 'I_r := [pick i | [forall j, f i <= f j]].
(** [v[i] = a]. bopdmd.py:314, 345-346 *)
Definition set_entry r (v : 'rV[C]_r) (i : 'I_r) (a : C) : 'rV[C]_r := \row_j (if j == i then a else v 0 j).

(** bopdmd.py:342-346 *)
Definition pair_re (a b : C) : C := ('Re a + 'Re b) / 2%:R.
(** bopdmd.py:342-346 *)
Definition pair_im (a b : C) : C := (`|'Im a| + `|'Im b|) / 2%:R.

(** ** The pairing loop (bopdmd.py:317-346); [fuel] is the number of eigenvalues, more than enough *)
Fixpoint pair_loop (fuel : nat) r (e : 'rV[C]_r) (un : seq 'I_r) (acc : 'rV[C]_r) : result 'rV[C]_r :=
  match un, fuel with
  | i0 :: _, fuel'.+1 =>
      let i1 := x_pop x i0 un in
      let un1 := rem i1 un in
      let e1 := e 0 i1 in
      match argmin (fun j => `|e 0 j - e1^*|) with
      | Some i2 =>
          if i2 \in un1 then
            let e2 := e 0 i2 in
            let acc1 := set_entry acc i1 (pair_re e1 e2 + 'i * (pair_im e1 e2 * Num.sg ('Im e1))) in
            pair_loop fuel' e (rem i2 un1) (set_entry acc1 i2 (pair_re e1 e2 + 'i * (pair_im e1 e2 * Num.sg ('Im e2))))
          else Err ValueError
      | None => Err ValueError
      end
  | _, _ => Ok acc
  end.

(** bopdmd.py:302-348.  Entries are comparable, so argmin always answers. *)
Definition conj_pairs r (e : 'rV[C]_r) : result 'rV[C]_r :=
  if odd r then
    match argmin (fun j => `|'Im (e 0 j)|) with
    | Some i0 => pair_loop r e (rem i0 (enum 'I_r)) (set_entry (x_empty x r) i0 ('Re (e 0 i0)))
    | None => Err ValueError
    end
  else pair_loop r e (enum 'I_r) (x_empty x r).

(** bopdmd.py:350-352 *)
Definition make_stable r (e : 'rV[C]_r) : 'rV[C]_r :=
  \row_j (if 0 < 'Re (e 0 j) then 'i * 'Im (e 0 j) else e 0 j).
(** bopdmd.py:353-354 *)
Definition make_imag r (e : 'rV[C]_r) : 'rV[C]_r := \row_j ('i * 'Im (e 0 j)).

(** ** _push_eigenvalues (bopdmd.py:286-356) *)
Definition push (c : constr) r (e : 'rV[C]_r) : result 'rV[C]_r :=
  match c with
  | ConFun f => Ok (f r e)
  | ConSet s =>
      let! e1 := if c_conj s then conj_pairs e else Ok e in
      Ok (if c_stable s then make_stable e1 else if c_imag s then make_imag e1 else e1)
  end.

(** the array passed to _push_eigenvalues is changed in place (bopdmd.py:350-352) when only "stable" applies *)
Definition push_in_place (c : constr) r (e : 'rV[C]_r) : 'rV[C]_r :=
  match c with
  | ConSet s => if c_stable s && ~~ c_conj s then make_stable e else e
  | ConFun _ => e
  end.

(** ** Argument checks of the constructor (bopdmd.py:1055-1080, 1302-1352).
    A constraint function is given with what it does on the dummy vector. *)
Inductive dummy_run := DRaises | DNotArray | DOtherShape | DSameShape.
(** bopdmd.py:1302-1352 *)
Inductive constr_arg := CaNone | CaFun of dummy_run & (forall r, 'rV[C]_r -> 'rV[C]_r) | CaSet of cset | CaOther.
(** _check_eig_constraints, bopdmd.py:1302-1352 *)
Definition check_constraints (a : constr_arg) : result constr :=
  match a with
  | CaNone => Ok (ConSet (CSet false false false false))
  | CaOther => Err TypeError
  | CaFun DSameShape f => Ok (ConFun f)
  | CaFun _ _ => Err ValueError
  | CaSet s => if c_other s || (c_stable s && c_imag s) then Err ValueError else Ok (ConSet s)
  end.

(** ** Options of the variable projection (bopdmd.py:150-158).
    Simplification: maxlam and maxiter are not negative (np.zeros refuses a negative maxiter). *)
Record vopts := VOpts {
  vo_lambda : C; vo_maxlam : nat; vo_lamup : C; vo_levmarq : bool; vo_maxiter : nat;
  vo_tol : C; vo_stall : C; vo_fulljac : bool }.

(** a proximal operator acts on matrices of any size. bopdmd.py:574-575, 772-773 *)
Definition prox_fun := forall a b, 'M[C]_(a, b) -> 'M[C]_(a, b).

(** np.finfo(float).eps. bopdmd.py:541, 760 *)
Definition feps : C := (2%:R ^+ 52)^-1.

(** np.linalg.lstsq(A, H)[0]: column by column. bopdmd.py:571 *)
Definition lstsq_mx a b p (A : 'M[C]_(a, b)) (H : 'M[C]_(a, p)) : 'M[C]_(b, p) :=
  \matrix_(i, j) np_lstsq np A (col j H) i 0.

(** [X.ravel(order="F")]. bopdmd.py:606, 613, 623 *)
Definition ravelF a b (A : 'M[C]_(a, b)) : 'cV[C]_(b * a) := (mxvec A^T)^T.

(** bopdmd.py:358-391 *)
Definition exp_mx M r (t : 'rV[C]_M) (al : 'rV[C]_r) : 'M[C]_(M, r) := \matrix_(i, j) x_exp x (t 0 i * al 0 j).
(** _exp_function_deriv, bopdmd.py:371-391 *)
Definition exp_deriv M r (t : 'rV[C]_M) (al : 'rV[C]_r) (k : 'I_r) : 'M[C]_(M, r) :=
  \matrix_(i, j) (if j == k then t 0 i * x_exp x (al 0 k * t 0 i) else 0).

(** bopdmd.py:393-413, as the transform U S^-1 Vh and the projector U U^h that the callers form *)
Definition irank (tolrank : C) k (s : 'rV[C]_k) : 'I_k.+1 :=
  inord #|[pred j : 'I_k | [exists i : 'I_k, (nat_of_ord i == 0%N) && (tolrank * s 0 i < s 0 j)]]|.

(** ** The Jacobian (bopdmd.py:599-620) *)
Section VarPro.
Variable o : vopts.
Variable con : constr.
(** the proximal operator, when it is to be applied: mode_prox given and use_proj=False *)
Variable prox : option prox_fun.
Variables (M IS : nat) (H : 'M[C]_(M, IS)) (t : 'rV[C]_M).

(** bopdmd.py:560 *)
Definition resid r (al : 'rV[C]_r) (B : 'M[C]_(r, IS)) : 'M[C]_(M, IS) := H - exp_mx t al *m B.
(** bopdmd.py:561 *)
Definition objective r (al : 'rV[C]_r) (B : 'M[C]_(r, IS)) : C := np_norm np (resid al B) ^+ 2 / 2%:R.
(** Simplification: H is not zero (NumPy divides by zero). bopdmd.py:562 *)
Definition rel_error r (al : 'rV[C]_r) (B : 'M[C]_(r, IS)) : C := np_norm np (resid al B) / np_norm np H.
(** bopdmd.py:566-577 *)
Definition compute_B r (al : 'rV[C]_r) : 'M[C]_(r, IS) :=
  let B := lstsq_mx (exp_mx t al) H in
  match prox with Some p => p _ _ B | None => B end.

(** one column, before ravel (bopdmd.py:600-613) *)
Definition djac_col r (al : 'rV[C]_r) (B : 'M[C]_(r, IS)) (k : 'I_r) : 'M[C]_(M, IS) :=
  let: (U, s, Vh) := np_svd np (exp_mx t al) in
  let q := irank (M%:R * feps) s in
  let Uq := take_cols U q in
  let d := exp_deriv t al k in
  let a := (d - Uq *m (adj Uq *m d)) *m B in
  if vo_fulljac o then
    a + Uq *m diag_mx (recip (take_cols s q)) *m adj (take_cols (adj Vh) q) *m (adj d *m resid al B)
  else a.
(** bopdmd.py:606, 613 *)
Definition djac r (al : 'rV[C]_r) (B : 'M[C]_(r, IS)) : 'M[C]_(IS * M, r) :=
  \matrix_(i, k) ravelF (djac_col al B k) i 0.
(** Python's max: bopdmd.py:620, 669 *)
Definition maxC (a b : C) : C := if a < b then b else a.
(** Python's min: bopdmd.py:619 *)
Definition minC (a b : C) : C := if b < a then b else a.
(** bopdmd.py:615-620 *)
Definition scales r (al : 'rV[C]_r) (B : 'M[C]_(r, IS)) : 'rV[C]_r :=
  \row_k (if vo_levmarq o then maxC (minC (np_norm np (col k (djac al B))) 1) (10%:R ^+ 6)^-1 else 1).

(** ** The damped step (bopdmd.py:622-650).  np.triu leaves the triangular R as it is. *)
Definition triu r (R : 'M[C]_r) : 'M[C]_r := \matrix_(i, j) (if (i <= j)%N then R i j else 0).
(** bopdmd.py:623-644 *)
Definition delta r (al : 'rV[C]_r) (B : 'M[C]_(r, IS)) (lam : C) : 'rV[C]_r :=
  let: (Q, R, pvt) := x_qr x (djac al B) in
  let rjac := col_mx (triu R) (lam *: diag_mx (\row_j scales al B 0 (pvt j))) in
  let rhs := col_mx (adj Q *m ravelF (resid al B)) 0 in
  let d := np_lstsq np rjac rhs in
  \row_j d ((pvt^-1)%g j) 0.
(** bopdmd.py:636-650 with compute_B, 654 and 677 *)
Definition step r (al : 'rV[C]_r) (B : 'M[C]_(r, IS)) (lam : C) : result ('rV[C]_r * 'M[C]_(r, IS)) :=
  let! a := push con (al + delta al B lam) in
  Ok (a, compute_B a).

(** bopdmd.py:658-669.  Simplification: a zero predicted improvement gives the ratio 0. *)
Definition ratio r (al : 'rV[C]_r) (B : 'M[C]_(r, IS)) (d : 'rV[C]_r) (c : 'rV[C]_r * 'M[C]_(r, IS)) : C :=
  (objective al B - objective c.1 c.2) /
  ('Re ((map_mx conjC d *m adj (djac al B) *m ravelF (resid al B)) 0 0) / 2%:R).
(** bopdmd.py:669 *)
Definition rescale_lambda (lam q : C) : C := lam * maxC 3%:R^-1 (1 - (2%:R * q - 1) ^+ 3).

(** bopdmd.py:674-683: the last candidate, whether or not it improves *)
Fixpoint lm_search (n : nat) r (al : 'rV[C]_r) (B : 'M[C]_(r, IS)) (lam : C) (c : 'rV[C]_r * 'M[C]_(r, IS)) :
    result (C * ('rV[C]_r * 'M[C]_(r, IS))) :=
  match n with
  | 0%N => Ok (lam, c)
  | n'.+1 =>
      let lam' := lam * vo_lamup o in
      let! c' := step al B lam' in
      if rel_error c'.1 c'.2 < rel_error al B then Ok (lam', c') else lm_search n' al B lam' c'
  end.

(** the body of an iteration up to the update: None when no step length works (bopdmd.py:599-698) *)
Definition lm_iter r (al : 'rV[C]_r) (B : 'M[C]_(r, IS)) (lam : C) :
    result (option (C * ('rV[C]_r * 'M[C]_(r, IS)))) :=
  let! c := step al B lam in
  if rel_error c.1 c.2 < rel_error al B then
    Ok (Some (rescale_lambda lam (ratio al B (delta al B lam) c), c))
  else
    let! s := lm_search (vo_maxlam o) al B lam c in
    Ok (if rel_error s.2.1 s.2.2 < rel_error al B then Some s else None).

(** ** The outer loop (bopdmd.py:598-742), [itr] counts iterations, [n] those left *)
Record vp_out r := VpOut { vp_alpha : 'rV[C]_r; vp_B : 'M[C]_(r, IS); vp_conv : bool }.
(** bopdmd.py:598-742 *)
Fixpoint lm_loop (n itr : nat) r (al : 'rV[C]_r) (B : 'M[C]_(r, IS)) (lam : C) : result (vp_out r) :=
  match n with
  | 0%N => Ok (VpOut al B false)
  | n'.+1 =>
      let! nx := lm_iter al B lam in
      match nx with
      | None => Ok (VpOut al B false)
      | Some (lam', (al', B')) =>
          if rel_error al' B' < vo_tol o then Ok (VpOut al' B' true)
          else if (0 < itr)%N && (rel_error al B - rel_error al' B' < vo_stall o * rel_error al B)
          then Ok (VpOut al' B' false)
          else lm_loop n' itr.+1 al' B' lam'
      end
  end.

(** ** _variable_projection (bopdmd.py:503-742) *)
Definition variable_projection r (al0 : 'rV[C]_r) : result (vp_out r) :=
  let! al := push con al0 in
  lm_loop (vo_maxiter o) 0 al (compute_B al) (vo_lambda o).
End VarPro.

(** ** Normalisation (bopdmd.py:755-764).  Simplification: at least one eigenvalue. *)
Definition col_norms n r (w : 'M[C]_(n, r)) : 'rV[C]_r := \row_j sqrtC (\sum_i `|w i j| ^+ 2).
(** np.max(b), bopdmd.py:760 *)
Definition row_max r (b : 'rV[C]_r) : C := foldr maxC 0 [seq b 0 j | j <- enum 'I_r].
(** inds_small, bopdmd.py:760 *)
Definition tiny_col r (b : 'rV[C]_r) (j : 'I_r) : bool := `|b 0 j| < 10%:R * feps * row_max b.
(** bopdmd.py:762-763 *)
Definition unit_modes n r (w : 'M[C]_(n, r)) : 'M[C]_(n, r) :=
  let b := col_norms w in \matrix_(i, j) (if tiny_col b j then 0 else w i j / b 0 j).
(** bopdmd.py:757, 764 *)
Definition mode_amps n r (w : 'M[C]_(n, r)) : 'rV[C]_r :=
  let b := col_norms w in \row_j (if tiny_col b j then 0 else b 0 j).

(** w diag(e) pinv(w). bopdmd.py:768, 776-778, 782 *)
Definition propagator n r (w : 'M[C]_(n, r)) (e : 'rV[C]_r) : 'M[C]_n := w *m diag_mx e *m np_pinv np w.

(** ** Configuration of BOPDMD. trial_size, bopdmd.py:470-479 *)
Inductive trial_arg := TInt of BinNums.Z | TNum of Q.
(** eig_sort, bopdmd.py:429-445 *)
Inductive esort := EsAuto | EsReal | EsImag | EsAbs | EsBad.
(** bopdmd.py:1029-1083 *)
Record bop_cfg := BopCfg {
  bc_A : bool; bc_proj : bool;
  (* a num_trials that is not an int counts as 0 *)
  bc_trials : int; bc_size : trial_arg; bc_sort : esort; bc_con : constr; bc_prox : option prox_fun;
  bc_remove : bool; bc_maxfail : int;
  (* None: an option that is not a number *)
  bc_opts : option vopts }.

(** bopdmd.py:574 *)
Definition prox_unprojected (cfg : bop_cfg) : option prox_fun := if bc_proj cfg then None else bc_prox cfg.

(** the result of a trial: modes, eigenvalues, amplitudes, Atilde, A, converged. bopdmd.py:786 *)
Record trial_out n q r := TrialOut {
  to_w : 'M[C]_(n, r); to_e : 'rV[C]_r; to_b : 'rV[C]_r; to_At : 'M[C]_q; to_A : option 'M[C]_n; to_conv : bool }.

(** the data to be fitted: projected (M x q) or not (M x n). bopdmd.py:1467-1474 *)
Definition data_cols (cfg : bop_cfg) (n q : nat) : nat := if bc_proj cfg then q else n.

(** the modes of the full space and Atilde, from the normalised transposed B (bopdmd.py:766-778) *)
Definition lift_modes (cfg : bop_cfg) n q r (P : 'M[C]_(n, q)) (e : 'rV[C]_r) :
    'M[C]_(data_cols cfg n q, r) -> 'M[C]_(n, r) * 'M[C]_q :=
  match bc_proj cfg as u return 'M[C]_(if u then q else n, r) -> 'M[C]_(n, r) * 'M[C]_q with
  | true => fun w => (match bc_prox cfg with Some p => p _ _ (P *m w) | None => P *m w end, propagator w e)
  | false => fun w => (w, propagator (adj P *m w) e)
  end.

(** ** _single_trial_compute_operator (bopdmd.py:744-786) *)
Definition single_trial (cfg : bop_cfg) (o : vopts) n q (P : 'M[C]_(n, q)) M (H : 'M[C]_(M, data_cols cfg n q))
    (t : 'rV[C]_M) r (al0 : 'rV[C]_r) : result (trial_out n q r) :=
  let! v := variable_projection o (bc_con cfg) (prox_unprojected cfg) H t al0 in
  let e := vp_alpha v in
  let w := (vp_B v)^T in
  let: (W, At) := lift_modes P e (unit_modes w) in
  Ok (TrialOut W e (mode_amps w) At (if bc_A cfg then Some (propagator W e) else None) (vp_conv v)).

(** ** Sorting (bopdmd.py:415-445): the order, and the sort kept for later trials *)
Definition mean r (f : 'I_r -> C) : C := (\sum_j f j) / r%:R.
(** np.var, bopdmd.py:430-432 *)
Definition variance r (f : 'I_r -> C) : C := mean (fun j => (f j - mean f) ^+ 2).
(** bopdmd.py:429-434 *)
Definition auto_sort r (e : 'rV[C]_r) : esort :=
  let vr := variance (fun j => 'Re (e 0 j)) in
  let vi := variance (fun j => 'Im (e 0 j)) in
  let va := variance (fun j => `|e 0 j|) in
  if (vi <= vr) && (va <= vr) then EsReal else if va <= vi then EsImag else EsAbs.
(** bopdmd.py:440-441 *)
Definition key_imag (a b : C) : bool := ('Im a < 'Im b) || (('Im a == 'Im b) && ('Re a <= 'Re b)).
(** Simplification: argsort keeps equal keys in their order. bopdmd.py:438, 441, 443 *)
Definition argsort r (le : C -> C -> bool) (e : 'rV[C]_r) (j : 'I_r) : 'I_r :=
  nth j (sort (fun a b => le (e 0 a) (e 0 b)) (enum 'I_r)) j.
(** _argsort_eigenvalues, bopdmd.py:415-445 *)
Definition argsort_eigs (so : esort) r (e : 'rV[C]_r) : result (esort * ('I_r -> 'I_r)) :=
  let so' := match so with EsAuto => auto_sort e | _ => so end in
  match so' with
  | EsReal => Ok (so', argsort (@key_real C) e)
  | EsImag => Ok (so', argsort key_imag e)
  | EsAbs => Ok (so', argsort (@key_abs C) e)
  | _ => Err ValueError
  end.

(** ** _bag (bopdmd.py:447-501) *)
Definition batch_size (M : nat) (ts : trial_arg) : result nat :=
  let! b :=
    match ts with
    | TNum q =>
        if Model_Utils.Qltb (inject_Z Z0) q && Model_Utils.Qltb q (inject_Z (Zpos xH))
        then Ok (BinInt.Z.to_nat (BinInt.Z.div (BinInt.Z.mul (Qnum q) (BinInt.Z.of_nat M)) (Zpos (Qden q))))
        else Err ValueError
    | TInt z => if BinInt.Z.leb (Zpos xH) z then Ok (BinInt.Z.to_nat z) else Err ValueError
    end in
  if (M < b)%N then Err ValueError else if (b == 0)%N then Err ValueError else Ok b.
(** bopdmd.py:497-501 *)
Definition bag (k : nat) (M : nat) (ts : trial_arg) : result (seq 'I_M) :=
  let! b := batch_size M ts in
  Ok (sort (fun i j : 'I_M => (i <= j)%N) (x_choice x k M b)).
(** [H[inds]] and [t[inds]]. bopdmd.py:501 *)
Definition rows_at M p (H : 'M[C]_(M, p)) (l : seq 'I_M) : 'M[C]_(size l, p) :=
  \matrix_(i, j) H (tnth (in_tuple l) i) j.
(** bopdmd.py:853 *)
Definition cols_at M (t : 'rV[C]_M) (l : seq 'I_M) : 'rV[C]_(size l) := \row_i t 0 (tnth (in_tuple l) i).

(** ** The bagging loop (bopdmd.py:837-902): running sums of values and of squared moduli *)
Record sums n r := Sums {
  su_w : 'M[C]_(n, r); su_e : 'rV[C]_r; su_b : 'rV[C]_r;
  su_w2 : 'M[C]_(n, r); su_e2 : 'rV[C]_r; su_b2 : 'rV[C]_r }.
(** bopdmd.py:838-843 *)
Definition no_sums n r : sums n r := Sums 0 0 0 0 0 0.
(** bopdmd.py:867-869 *)
Definition pick_cols a r (A : 'M[C]_(a, r)) (s : 'I_r -> 'I_r) : 'M[C]_(a, r) := \matrix_(i, j) A i (s j).
(** bopdmd.py:872-874 *)
Definition sqr_abs a b (A : 'M[C]_(a, b)) : 'M[C]_(a, b) := map_mx (fun z => `|z| ^+ 2) A.
(** bopdmd.py:866-874 *)
Definition add_trial n q r (S : sums n r) (o : trial_out n q r) (s : 'I_r -> 'I_r) : sums n r :=
  Sums (su_w S + pick_cols (to_w o) s) (su_e S + pick_cols (to_e o) s) (su_b S + pick_cols (to_b o) s)
       (su_w2 S + sqr_abs (pick_cols (to_w o) s)) (su_e2 S + sqr_abs (pick_cols (to_e o) s))
       (su_b2 S + sqr_abs (pick_cols (to_b o) s)).

(** [run k] is the outcome of the k-th bag and trial.  None: the loop still runs after [fuel] rounds.
    bopdmd.py:850-902 *)
Fixpoint bag_loop (cfg : bop_cfg) n q r (run : nat -> result (trial_out n q r)) (fuel k good fails : nat)
    (so : esort) (S : sums n r) : option (result (sums n r)) :=
  if (bc_trials cfg <= good%:Z)%R then Some (Ok S)
  else match fuel with
  | 0%N => None
  | fuel'.+1 =>
      match run k with
      | Err e => Some (Err e)
      | Ok o =>
          if to_conv o || ~~ bc_remove cfg then
            match argsort_eigs so (to_e o) with
            | Err e => Some (Err e)
            | Ok (so', s) =>
                if (0%:Z == bc_maxfail cfg)%R then Some (Err RuntimeError)
                else bag_loop cfg run fuel' k.+1 good.+1 0 so' (add_trial S o s)
            end
          else if (fails.+1%:Z == bc_maxfail cfg)%R then Some (Err RuntimeError)
          else bag_loop cfg run fuel' k.+1 good fails.+1 so S
      end
  end.

(** the k-th bag and its trial, started from the eigenvalues of the initial trial (bopdmd.py:851-855) *)
Definition bag_trial (cfg : bop_cfg) (o : vopts) n q (P : 'M[C]_(n, q)) M (H : 'M[C]_(M, data_cols cfg n q))
    (t : 'rV[C]_M) r (e0 : 'rV[C]_r) (k : nat) : result (trial_out n q r) :=
  let! l := bag k M (bc_size cfg) in
  single_trial o P (rows_at H l) (cols_at t l) e0.

(** what compute_operator stores, and the amplitudes it returns. bopdmd.py:904-935 *)
Record bop_op n q r := BopOp {
  bo_modes : 'M[C]_(n, r); bo_eigs : 'rV[C]_r; bo_b : 'rV[C]_r; bo_At : 'M[C]_q; bo_A : option 'M[C]_n;
  (* modes_std, eigenvalues_std, amplitudes_std *)
  bo_std : option ('M[C]_(n, r) * 'rV[C]_r * 'rV[C]_r) }.

(** bopdmd.py:904-910 *)
Definition mean_mx (N : C) a b (A : 'M[C]_(a, b)) : 'M[C]_(a, b) := map_mx (fun z => z / N) A.
(** bopdmd.py:908-910 *)
Definition std_mx (N : C) a b (A A2 : 'M[C]_(a, b)) : 'M[C]_(a, b) :=
  \matrix_(i, j) sqrtC `|A2 i j / N - `|A i j / N| ^+ 2|.
(** bopdmd.py:904-935 *)
Definition summary (cfg : bop_cfg) n q (P : 'M[C]_(n, q)) r (S : sums n r) : bop_op n q r :=
  let N := (bc_trials cfg)%:~R in
  let w := mean_mx N (su_w S) in
  let e := mean_mx N (su_e S) in
  let b := mean_mx N (su_b S) in
  BopOp w e b (propagator (adj P *m w) e) (if bc_A cfg then Some (propagator w e) else None)
    (Some (std_mx N (su_w S) (su_w2 S), std_mx N (su_e S) (su_e2 S), std_mx N (su_b S) (su_b2 S))).

(** ** compute_operator (bopdmd.py:788-935); None: bagging has not ended after [fuel] trials *)
Definition compute_operator (fuel : nat) (cfg : bop_cfg) (o : vopts) n q (P : 'M[C]_(n, q)) M
    (H : 'M[C]_(M, data_cols cfg n q)) (t : 'rV[C]_M) r (al0 : 'rV[C]_r) : option (result (bop_op n q r)) :=
  match single_trial o P H t al0 with
  | Err e => Some (Err e)
  | Ok t0 =>
      if bc_trials cfg <= 0 then
        Some (Ok (BopOp (to_w t0) (to_e t0) (to_b t0) (to_At t0) (to_A t0) None))
      else
        match bag_loop cfg (bag_trial o P H t (to_e t0)) fuel 0 0 0 (bc_sort cfg) (no_sums n r) with
        | Some (Ok s) => Some (Ok (summary cfg P s))
        | Some (Err e) => Some (Err e)
        | None => None
        end
  end.

(** ** The instance.  A given basis is a 2-D array with [n] rows; a given init_alpha is a 1-D array.
    bopdmd.py:1029-1086 *)
Record bop n := Bop {
  b_cfg : bop_cfg; b_rank : Model_Utils.rank_arg;
  b_basis : option {q & 'M[C]_(n, q)}; b_alpha : option {r & 'rV[C]_r};
  b_snap : option {m & 'M[C]_(n, m)}; b_time : option {m & 'rV[C]_m};
  (* the operator: absent, built but not computed, computed *)
  b_op : option (option {q & {r & bop_op n q r}}) }.
(** self._proj_basis = ..., bopdmd.py:1425-1436 *)
Definition set_basis n (d : bop n) q (P : 'M[C]_(n, q)) : bop n :=
  Bop (b_cfg d) (b_rank d) (Some (existT _ q P)) (b_alpha d) (b_snap d) (b_time d) (b_op d).
(** self._init_alpha = ..., bopdmd.py:1438-1447 *)
Definition set_alpha n (d : bop n) r (a : 'rV[C]_r) : bop n :=
  Bop (b_cfg d) (b_rank d) (b_basis d) (Some (existT _ r a)) (b_snap d) (b_time d) (b_op d).
(** bopdmd.py:1423 *)
Definition set_rank n (d : bop n) (k : nat) : bop n :=
  Bop (b_cfg d) (Model_Utils.RInt (BinInt.Z.of_nat k)) (b_basis d) (b_alpha d) (b_snap d) (b_time d) (b_op d).
(** self._Atilde = ..., bopdmd.py:1449-1476 *)
Definition set_op n (d : bop n) (u : option {q & {r & bop_op n q r}}) : bop n :=
  Bop (b_cfg d) (b_rank d) (b_basis d) (b_alpha d) (b_snap d) (b_time d) (Some u).

(** bopdmd.py:1029-1086 *)
Definition bop_init n (ints : bool) (dict : bool) (con : constr_arg) (cfg : constr -> bop_cfg) rk basis alpha : result (bop n) :=
  if ~~ ints then Err TypeError
  else if ~~ dict then Err TypeError
  else let! c := check_constraints con in Ok (Bop (cfg c) rk basis alpha None None None).

(** bopdmd.py:1433, 1444 *)
Definition rank_is (rk : Model_Utils.rank_arg) (k : nat) : bool :=
  Qeq_bool (Model_Utils.rank_val rk) (inject_Z (BinInt.Z.of_nat k)).

(** ** _initialize_alpha (bopdmd.py:1354-1393) on the projected data.
    Simplification: at least two snapshots. *)
Definition init_eigs (rk : Model_Utils.rank_arg) q m (ux : 'M[C]_(q, m)) (t : 'rV[C]_m) : result {r & 'rV[C]_r} :=
  match m as k return 'M[C]_(q, k) -> 'rV[C]_k -> result {r & 'rV[C]_r} with
  | 0%N => fun _ _ => Err IndexError
  | m'.+1 => fun ux t =>
      let x1 := col' ord_max ux in
      let x2 := col' ord0 ux in
      let dt := col' ord0 t - col' ord_max t in
      let Y := (2%:R)^-1 *: (x1 + x2) in
      let Z := scale_cols (x2 - x1) (recip dt) in
      let d := compute_svd np Y rk in
      if diag_mx (sv_s d) \in unitmx then
        Ok (existT _ (sv_r d) (np_eig np (adj (sv_U d) *m Z *m sv_V d *m invmx (diag_mx (sv_s d)))).1)
      else Err LinAlgError
  end ux t.

(** the initial eigenvalues, computed or given (bopdmd.py:1438-1447) *)
Definition get_alpha n (d : bop n) q m (ux : 'M[C]_(q, m)) (t : 'rV[C]_m) : result {r & 'rV[C]_r} :=
  match b_alpha d with
  | None => init_eigs (b_rank d) ux t
  | Some ra => if rank_is (b_rank d) (projT1 ra) then Ok ra else Err ValueError
  end.

(** the projected or the full data, one snapshot per row (bopdmd.py:1467-1474) *)
Definition fit_data (cfg : bop_cfg) n q (P : 'M[C]_(n, q)) m (X : 'M[C]_(n, m)) : 'M[C]_(m, data_cols cfg n q) :=
  match bc_proj cfg as u return 'M[C]_(m, if u then q else n) with
  | true => (adj P *m X)^T
  | false => X^T
  end.

(** ** End of fit and fit_econ (bopdmd.py:1449-1476, 1548-1575): build the operator, compute it, store it *)
Definition run_operator (fuel : nat) n (d : bop n) q (P : 'M[C]_(n, q)) m (H : 'M[C]_(m, data_cols (b_cfg d) n q))
    (t : 'rV[C]_m) r (al : 'rV[C]_r) : option (bop n * result unit) :=
  match bc_opts (b_cfg d) with
  | None => Some (d, Err TypeError)
  | Some o =>
      let d1 := set_op (set_alpha d (push_in_place (bc_con (b_cfg d)) al)) None in
      match compute_operator fuel o P H t al with
      | None => None
      | Some (Err e) => Some (d1, Err e)
      | Some (Ok u) => Some (set_op d1 (Some (existT _ q (existT _ r u))), Ok tt)
      end
  end.

(** the basis of the fit (bopdmd.py:1425-1436) *)
Definition get_basis n (d : bop n) m (X : 'M[C]_(n, m)) : result {q & 'M[C]_(n, q)} :=
  match b_basis d with
  | None =>
      let rk := if bc_proj (b_cfg d) then b_rank d else Model_Utils.RInt (Zneg xH) in
      Ok (existT _ _ (sv_U (compute_svd np X rk)))
  | Some qP => if rank_is (b_rank d) (projT1 qP) then Ok qP else Err ValueError
  end.

(** ** fit (bopdmd.py:1395-1476).  [flat]: t is one-dimensional. *)
Definition fit_from (fuel : nat) n (d : bop n) m (X : 'M[C]_(n, m)) (t : 'rV[C]_m) : option (bop n * result unit) :=
  let d2 := set_rank d (np_rank np (np_svd np X).1.2 n m (b_rank d)) in
  match get_basis d2 X with
  | Err e => Some (d2, Err e)
  | Ok (existT q P) =>
      let d3 := set_basis d2 P in
      match get_alpha d3 (adj P *m X) t with
      | Err e => Some (d3, Err e)
      | Ok (existT r al) => @run_operator fuel n (set_alpha d3 al) q P m (fit_data (b_cfg d) P X) t r al
      end
  end.
(** bopdmd.py:1395-1476 *)
Definition bop_fit (fuel : nat) n (d : bop n) m (X : 'M[C]_(n, m)) (flat : bool) k (t : 'rV[C]_k) : option (bop n * result unit) :=
  let d1 := Bop (b_cfg d) (b_rank d) (b_basis d) (b_alpha d) (Some (existT _ m X)) (Some (existT _ k t)) None in
  if ~~ flat then Some (d1, Err ValueError)
  else match @eqP _ k m with
  | ReflectT e => fit_from fuel d1 X (castmx (erefl, e) t)
  | ReflectF _ => Some (d1, Err ValueError)
  end.

(** ** fit_econ (bopdmd.py:1478-1575); the snapshots are not kept *)
Definition econ_from (fuel : nat) n (d : bop n) q (P : 'M[C]_(n, q)) (s : 'rV[C]_q) m (V : 'M[C]_(q, m)) (t : 'rV[C]_m)
    (E : data_cols (b_cfg d) n q = q) : option (bop n * result unit) :=
  let ux := diag_mx s *m V in
  match get_alpha d ux t with
  | Err e => Some (d, Err e)
  | Ok (existT r al) => @run_operator fuel n (set_alpha d al) q P m (castmx (erefl, esym E) ux^T) t r al
  end.
Lemma data_cols_proj cfg n q : bc_proj cfg -> data_cols cfg n q = q. Proof. by rewrite /data_cols=> ->. Qed.
(** bopdmd.py:1478-1575 *)
Definition bop_fit_econ (fuel : nat) n (d : bop n) a (s : 'rV[C]_a) p k (V : 'M[C]_(p, k)) (flat : bool) l (t : 'rV[C]_l) :
    option (bop n * result unit) :=
  let d1 := Bop (b_cfg d) (b_rank d) (b_basis d) (b_alpha d) None (Some (existT _ l t)) None in
  match b_basis d, @idP (bc_proj (b_cfg d)) with
  | Some (existT q P), ReflectT u =>
      if ~~ rank_is (b_rank d) q then Some (d1, Err ValueError)
      else if ~~ flat then Some (d1, Err ValueError)
      else match @eqP _ a q, @eqP _ p q, @eqP _ l k with
      | ReflectT ea, ReflectT ep, ReflectT el =>
          @econ_from fuel n d1 q P (castmx (erefl, ea) s) k (castmx (ep, erefl) V) (castmx (erefl, el) t)
            (@data_cols_proj (b_cfg d) n q u)
      | _, _, _ => Some (d1, Err ValueError)
      end
  | _, _ => Some (d1, Err ValueError)
  end.

(** ** forecast (bopdmd.py:1577-1629), and dynamics (bopdmd.py:1216-1224).
    [k0] numbers the first call of the random generator.  The answer is the prediction, or mean and variance. *)
Definition exp_rows r (e : 'rV[C]_r) k (t : 'rV[C]_k) : 'M[C]_(r, k) := \matrix_(i, j) x_exp x (e 0 i * t 0 j).
(** bopdmd.py:1614-1616, 1622-1628 *)
Definition predict n r (W : 'M[C]_(n, r)) (e b : 'rV[C]_r) k (t : 'rV[C]_k) : 'M[C]_(n, k) :=
  W *m diag_mx b *m exp_rows e t.
(** bopdmd.py:1619, 1629 *)
Inductive answer n k := Plain of 'M[C]_(n, k) | Spread of 'M[C]_(n, k) & 'M[C]_(n, k).
(** np.multiply, bopdmd.py:1605-1612 *)
Definition mul_rows r (a b : 'rV[C]_r) : 'rV[C]_r := \row_j (a 0 j * b 0 j).
(** bopdmd.py:1618-1619 *)
Definition ensemble N n k (f : 'I_N -> 'M[C]_(n, k)) : answer n k :=
  let mu := \matrix_(i, j) mean (fun l => f l i j) in
  Spread mu (\matrix_(i, j) mean (fun l => `|f l i j - mu i j| ^+ 2)).
(** bopdmd.py:1577-1629 *)
Definition forecast (k0 : nat) n (d : bop n) (flat : bool) k (t : 'rV[C]_k) : result (answer n k) :=
  if ~~ flat then Err ValueError
  else match b_op d with
  | None => Err AttributeError
  | Some None => Err ValueError
  | Some (Some (existT q (existT r u))) =>
      match bo_std u with
      | None => Ok (Plain (predict (bo_modes u) (bo_eigs u) (bo_b u) t))
      | Some (_, se, sb) =>
          match b_snap d with
          | None => Err AttributeError
          | Some _ =>
              Ok (ensemble (fun l : 'I_`|bc_trials (b_cfg d)|%N =>
                predict (bo_modes u) (bo_eigs u + mul_rows (x_randn x (k0 + l.*2)%N r) se)
                  (bo_b u + mul_rows (x_randn x (k0 + l.*2).+1 r) sb) t))
          end
      end
  end.
End Bop.
