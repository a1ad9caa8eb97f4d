(** * Contracts of the calls made by the operator, and the vocabulary of C07, C08, C12-C17 *)
From mathcomp Require Import all_ssreflect all_algebra.
From Verif Require Import Py LinAlg Model_Operator.
Set Implicit Arguments. Unset Strict Implicit. Unset Printing Implicit Defensive.
Import GRing.Theory Num.Theory.
Local Open Scope ring_scope.

Section Spec.
Variable C : numClosedFieldType.
Implicit Type np : numpy C.

(** what the documentation of the routine promises for this very argument *)
Definition svd_ok np n m (X : 'M[C]_(n, m)) : Prop :=
  is_svd X (np_svd np X).1.1 (np_svd np X).1.2 (np_svd np X).2.
Definition eig_ok np r (A : 'M[C]_r) : Prop := is_eig A (np_eig np A).1 (np_eig np A).2.
Definition lstsq_ok np n r (M : 'M[C]_(n, r)) (y : 'cV[C]_n) : Prop := is_lstsq M y (np_lstsq np M y).
Definition pinv_ok np n r (M : 'M[C]_(n, r)) : Prop := is_pinv M (np_pinv np M).
Definition solve_ok np r (P : 'M[C]_r) (q : 'cV[C]_r) : Prop := P *m np_solve np P q = q.
Definition sqrtm_ok np r (M : 'M[C]_r) : Prop := np_sqrtm np M *m np_sqrtm np M = M.
Definition norm_ok np n m (X : 'M[C]_(n, m)) : Prop := 0 <= np_norm np X /\ np_norm np X ^+ 2 = frob2 X.
(** the power function agrees with repeated multiplication / division on integer exponents *)
Definition power_ok np : Prop := forall (x : C) (z : int), (x != 0 \/ 0 <= z) -> np_power np x z%:~R = x ^ z.

(** the user-supplied (or singular-value) scaling factors have no zero *)
Definition rescale_ok (rs : rescale C) : Prop :=
  match rs with RsArr f => all (fun x => x != 0) f | _ => True end.

(** the operator Y V S^-1 U^h that a decomposition X ~ U S V^h and Y define *)
Definition dmd_map n m r (Y : 'M[C]_(n, m)) (U : 'M[C]_(n, r)) (s : 'rV[C]_r) (V : 'M[C]_(m, r)) : 'M[C]_n :=
  Y *m V *m diag_mx (\row_j (s 0 j)^-1) *m adj U.

(** the decomposition used by the fit loses nothing of X *)
Definition untruncated n m r (X : 'M[C]_(n, m)) (U : 'M[C]_(n, r)) (s : 'rV[C]_r) (V : 'M[C]_(m, r)) : Prop :=
  X = U *m diag_mx s *m adj V /\ forall j, s 0 j != 0.

(** consecutive snapshots of a linear system *)
Definition linear_data n m (B : 'M[C]_n) (S : 'M[C]_(n, m.+1)) : Prop :=
  forall (j j' : 'I_m.+1), j' = j.+1 :> nat -> col j' S = B *m col j S.

(** The setting of exact recovery: the data follow one linear map [B], no option
    alters the plain least squares, the SVD is exact and keeps everything, the
    eigenvectors form a basis; exact modes moreover need non-zero eigenvalues. *)
Record linear_fit np n m (cfg cfg' : dmd_cfg C) (B : 'M[C]_n) (S : 'M[C]_(n, m.+1)) (f : dmd_fit C n m) : Prop := {
  rec_fit : fit np cfg S = (cfg', Ok f);
  rec_tlsq : d_tlsq cfg = 0; rec_fb : c_fb (d_op cfg) = false; rec_tik : c_tik (d_op cfg) = None;
  rec_rs : rescale_ok (c_rescale (d_op cfg'));
  rec_linear : linear_data B S;
  rec_svd : svd_ok np (col' ord_max S);
  rec_all : untruncated (col' ord_max S) (of_U (df_op f)) (of_s (df_op f)) (of_V (df_op f));
  rec_eig : forall Ah, ahat (c_rescale (d_op cfg')) (of_Atilde (df_op f)) = Ok Ah -> eig_ok np Ah;
  rec_diag : of_vecs (df_op f) \in unitmx;
  rec_nz : c_exact (d_op cfg) -> forall j, of_eigs (df_op f) 0 j != 0 }.

(** ... and the last snapshot is a combination of the previous ones *)
Record recoverable np n m (cfg cfg' : dmd_cfg C) (B : 'M[C]_n) (S : 'M[C]_(n, m.+1)) (f : dmd_fit C n m) : Prop := {
  rec_plain :> linear_fit np cfg cfg' B S f;
  rec_inv : exists c, col ord_max S = col' ord_max S *m c }.

(** any earlier use of the instance: data sets given to fit, with one or two arguments *)
Inductive dataset : Type :=
| OneSet : forall n m, 'M[C]_(n, m.+1) -> dataset
| TwoSets : forall n m, 'M[C]_(n, m) -> 'M[C]_(n, m) -> dataset.
Definition fit_data np (cfg : dmd_cfg C) (d : dataset) : dmd_cfg C :=
  match d with OneSet n m D => (fit np cfg D).1 | TwoSets n m X Y => (fit_xy np cfg X Y).1 end.
Definition after_fits np (cfg : dmd_cfg C) (h : seq dataset) : dmd_cfg C := foldl (fit_data np) cfg h.

(** k steps of the linear system *)
Definition state n (B : 'M[C]_n) (x : 'cV[C]_n) (k : nat) : 'cV[C]_n := iter k (mulmx B) x.
End Spec.
