(** * Vocabulary of C32: compressions that lose nothing *)
From mathcomp Require Import all_ssreflect all_algebra.
From Verif Require Import Py LinAlg Model_Operator Spec_Operator Model_CDMD.
Set Implicit Arguments. Unset Strict Implicit. Unset Printing Implicit Defensive.
Import GRing.Theory Num.Theory.
Local Open Scope ring_scope.

Section Spec.
Variable C : numClosedFieldType.
Implicit Type np : numpy C.

(** the snapshots can be computed back, linearly, from the compressed ones *)
Definition lossless p n N (K : 'M[C]_(p, n)) (S : 'M[C]_(n, N)) : Prop := exists D, D *m (K *m S) = S.
(** the compression preserves lengths and angles of the snapshots *)
Definition isometric p n N (K : 'M[C]_(p, n)) (S : 'M[C]_(n, N)) : Prop := adj K *m (K *m S) = S.

(** the options that leave the least squares alone, and the routines at the calls made by
    the fit of the compressed snapshots [Sc] *)
Record plain_compressed np n p m (cfg : dmd_cfg C) (Sc : 'M[C]_(p, m.+1)) (f : cd_fit C n p m) : Prop := {
  pc_exact : c_exact (d_op cfg); pc_tlsq : d_tlsq cfg = 0; pc_fb : c_fb (d_op cfg) = false;
  pc_rs : rescale_ok (c_rescale (d_op cfg));
  pc_svd : svd_ok np (col' ord_max Sc);
  pc_eig : forall Ah, ahat (c_rescale (d_op cfg)) (cd_Atilde (cf_op f)) = Ok Ah -> eig_ok np Ah }.

(** no singular value of the compressed snapshots was dropped *)
Definition all_kept n p m (Sc : 'M[C]_(p, m.+1)) (f : cd_fit C n p m) : Prop :=
  untruncated (col' ord_max Sc) (cd_U (cf_op f)) (cd_s (cf_op f)) (cd_V (cf_op f)).

(** a plain DMD of the same snapshots, with its own routines and options *)
Record plain_dmd np n m (cfg cfg' : dmd_cfg C) (S : 'M[C]_(n, m.+1)) (g : dmd_fit C n m) : Prop := {
  pd_fit : fit np cfg S = (cfg', Ok g);
  pd_tlsq : d_tlsq cfg = 0; pd_fb : c_fb (d_op cfg) = false; pd_tik : c_tik (d_op cfg) = None;
  pd_svd : svd_ok np (col' ord_max S);
  pd_all : untruncated (col' ord_max S) (of_U (df_op g)) (of_s (df_op g)) (of_V (df_op g)) }.

(** two matrices of possibly different declared sizes have the same size and spectrum,
    multiplicities included *)
Definition same_spectrum r r' (A : 'M[C]_r) (A' : 'M[C]_r') : Prop := r = r' /\ char_poly A = char_poly A'.

(** [e] and [Phi] are eigenvalues and eigenvectors of [A]; a vector with a nonzero eigenvalue is not zero *)
Definition eigenpairs n r (A : 'M[C]_n) (e : 'rV[C]_r) (Phi : 'M[C]_(n, r)) : Prop :=
  A *m Phi = Phi *m diag_mx e /\ forall j, e 0 j != 0 -> col j Phi != 0.
End Spec.
