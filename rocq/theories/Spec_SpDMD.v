(** * Vocabulary of C36 *)
From mathcomp Require Import all_ssreflect all_algebra.
From Verif Require Import Py LinAlg Model_Operator Spec_Operator Model_SpDMD.
Set Implicit Arguments. Unset Strict Implicit. Unset Printing Implicit Defensive.
Import GRing.Theory Num.Theory Order.TTheory.
Local Open Scope ring_scope.

Section Spec.
Variable C : numClosedFieldType.

(** the contract of the Cholesky factorisation for the matrix given to it: a Hermitian positive
    definite matrix is factored as L L^h *)
Definition posdef r (M : 'M[C]_r) : Prop :=
  adj M = M /\ forall x : 'cV[C]_r, x != 0 -> 0 < (adj x *m M *m x) 0 0.
Definition cholesky_ok (sn : sp_numpy C) r (M : 'M[C]_r) : Prop :=
  posdef M -> exists L, sp_cholesky sn M = Ok L /\ L *m adj L = M.
(** ... and of a linear solver for the system given to it *)
Definition spsolve_ok (sn : sp_numpy C) r (K : 'M[C]_r) (y : 'cV[C]_r) : Prop :=
  K \in unitmx -> K *m sp_spsolve sn K y = y.

(** the soft-thresholding operator of the cited paper (10.1063/1.4863670): shrink the modulus by k *)
Definition shrinkage (k v : C) : C := if k < `|v| then (1 - k / `|v|) * v else 0.

(** A run of the alternating direction method with the update rules the code uses; [None] is NaN.
    [P] is the quadratic form of the error, [q] its linear term. *)
Record admm_run (cfg : sp_cfg C) r (P : 'M[C]_r) (q : 'cV[C]_r) (a b l : nat -> nvec C r) : Prop := {
  run_start : forall i, b 0%N i = Some 0 /\ l 0%N i = Some 0;
  run_alpha : forall k (bv lv : 'cV[C]_r), (forall i, b k i = Some (bv i 0)) -> (forall i, l k i = Some (lv i 0)) ->
    exists av : 'cV[C]_r, (forall i, a k.+1 i = Some (av i 0)) /\
      P *m av + (sp_rho cfg / 2%:R) *: av = q + (sp_rho cfg / 2%:R) *: (bv - (sp_rho cfg)^-1 *: lv);
  run_alpha_nan : forall k i, b k i = None \/ l k i = None -> forall j, a k.+1 j = None;
  run_beta : forall k i av lv, a k.+1 i = Some av -> l k i = Some lv ->
    let v := av + lv / sp_rho cfg in let t := sp_gamma cfg / sp_rho cfg in
    b k.+1 i = if v == 0 then None else Some (if t < `|v| then (1 - t) * (v / `|v|) else 0);
  run_beta_nan : forall k i, a k.+1 i = None \/ l k i = None -> b k.+1 i = None;
  run_lambda : forall k i av bv lv, a k.+1 i = Some av -> b k.+1 i = Some bv -> l k i = Some lv ->
    l k.+1 i = Some (lv + sp_rho cfg * (av - bv));
  run_lambda_nan : forall k i, a k.+1 i = None \/ b k.+1 i = None \/ l k i = None -> l k.+1 i = None }.

(** the stopping test after the k-th update: both residuals below their tolerances, and no NaN *)
Definition converged (cfg : sp_cfg C) r (a b l : nat -> nvec C r) (k : nat) : Prop :=
  exists av bv lv ov : 'cV[C]_r,
    [/\ (forall i, a k i = Some (av i 0)), (forall i, b k i = Some (bv i 0)),
        (forall i, l k i = Some (lv i 0)) & (forall i, b k.-1 i = Some (ov i 0))] /\
    let nrm (v : 'cV[C]_r) := sqrtC (frob2 v) in
    let tol := sqrtC r%:R * sp_abs cfg in
    nrm (av - bv) < tol + sp_rel cfg * (if nrm av < nrm bv then nrm bv else nrm av) /\
    sp_rho cfg * nrm (bv - ov) < tol + sp_rel cfg * nrm lv.
End Spec.
