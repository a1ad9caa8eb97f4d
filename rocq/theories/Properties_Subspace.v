(** * C51: SubspaceDMD *)
From Coq Require Import QArith.
From mathcomp Require Import all_ssreflect all_fingroup all_algebra all_field.
From Verif Require Import Py LinAlg Model_Operator Spec_Operator Proofs_OpCore Proofs_Operator Proofs_Recovery Ideal Proofs_Compress.
From Verif Require Import Model_Subspace Spec_Subspace Proofs_Subspace Proofs_Subspace2.
From Verif Require Model_Utils Proofs_Utils.
Set Implicit Arguments. Unset Strict Implicit. Unset Printing Implicit Defensive.
Import Order.TTheory GRing.Theory Num.Theory.
Local Open Scope ring_scope.

Section Main.
Variable C : numClosedFieldType.
Variables (np : numpy C) (mrank : forall n m, 'M[C]_(n, m) -> 'I_(minn n m).+1).

(** Any data.  The basis has orthonormal columns in the range of the projection of the future (snapshots j+2, j+3
    in column j) on the row space of the past (snapshots j, j+1 in column j); at most n and at most as many as
    the rank.  The modes are eigenvectors, for the reported eigenvalues, of the matrix that best maps the first
    half of this basis to the second. *)
Theorem C51_eigenpairs cfg n m (S : 'M[C]_(n, m.+4)) f : sub_fitted np mrank cfg S f ->
  let o := so_op (sf_out f) in let Q := so_Uq (sf_out f) in
  forall P1 P2, is_pinv (past S) P1 -> is_pinv (usubmx Q) P2 ->
  let O := future S *m (P1 *m past S) in
  [/\ adj Q *m Q = 1%:M, exists Z, Q = O *m Z, (so_k (sf_out f) <= minn n (\rank O))%N,
      dsubmx Q *m P2 *m of_modes o = of_modes o *m diag_mx (of_eigs o) &
      forall j, of_eigs o 0 j != 0 -> col j (of_modes o) != 0].
Proof.
move=> HF o Q P1 P2 H1 H2 O; rewrite /O -(projectedE (sub_past HF) H1).
have [HQ [HZ Hk]] := sub_basis HF; have [HE Hn] := sub_eigen HF H2.
by split.
Qed.

(** Linear data, nothing discarded: the pairs with non-zero eigenvalue are eigenpairs of the system in the span of
    the data, there are as many as the dimension of this span, and (with a basis of eigenvectors) every eigenvalue
    of the system on this span is reported. *)
Theorem C51_linear cfg n m (B : 'M[C]_n) (S : 'M[C]_(n, m.+4)) f : sub_fitted np mrank cfg S f ->
  linear_data B S -> keeps_all n (sc_rank cfg) -> (exists c, col ord_max S = middle S *m c) ->
  let o := so_op (sf_out f) in
  [/\ of_r o = \rank (middle S),
      forall j, of_eigs o 0 j != 0 -> let phi := col j (of_modes o) in
        [/\ phi != 0, B *m phi = of_eigs o 0 j *: phi & exists c, phi = middle S *m c] &
      of_vecs o \in unitmx -> forall lam (x : 'cV[C]_n), x != 0 -> (exists c, x = middle S *m c) ->
        B *m x = lam *: x -> exists j, of_eigs o 0 j = lam].
Proof.
move=> HF HL HK HI o; have [H1 H2] := sub_linear HL HF HK HI.
by split=> // Hu lam x Hx Hc HB; exact: (sub_complete HL HF HK HI Hu Hx Hc HB).
Qed.

(** The last hypothesis holds as soon as there are n + 3 snapshots. *)
Theorem C51_enough n m (B : 'M[C]_n) (S : 'M[C]_(n, m.+4)) : linear_data B S -> (n + 3 <= m.+4)%N ->
  exists c, col ord_max S = middle S *m c.
Proof. by move=> HL; rewrite addn3 => Hn; exact: (enough_inv HL). Qed.

(** Truncated: the reduced operator is the compression of the system. *)
Theorem C51_truncated cfg n m (B : 'M[C]_n) (S : 'M[C]_(n, m.+4)) f : sub_fitted np mrank cfg S f ->
  linear_data B S -> let o := so_op (sf_out f) in
  of_Atilde o = adj (of_U o) *m B *m of_U o /\ adj (of_U o) *m of_U o = 1%:M /\ exists Z, of_U o = middle S *m Z.
Proof.
move=> HF HL o; split; first exact: (atilde_lin HL HF).
have [[EX _] _ _ _ _] := sub_facts HF; split; first by case: EX.
exact: (U_range HL HF).
Qed.

(** The data are reconstructed, and continued, exactly. *)
Theorem C51_reconstruction cfg n m (B : 'M[C]_n) (S : 'M[C]_(n, m.+4)) f : sub_fitted np mrank cfg S f ->
  linear_data B S -> keeps_all n (sc_rank cfg) -> (exists c, col ord_max S = middle S *m c) ->
  let o := so_op (sf_out f) in
  of_vecs o \in unitmx -> (forall j, of_eigs o 0 j != 0) ->
  (B \in unitmx \/ exists c, col ord0 S = middle S *m c) ->
  (forall k, lstsq_ok np (of_modes o) (col k S)) ->
  (let P := opt_P (of_modes o) (of_eigs o) m.+4 in forall q, P \in unitmx -> solve_ok np P q) -> power_ok np ->
  forall t0 dt N (ts : 'I_N -> rat) (i : 'I_N) (k : nat), dt != 0 -> ts i = t0 + k%:R * dt ->
  col i (reconstruction (of_modes o) (dynamics np (of_eigs o) (sf_b f) (sc_opt cfg) m.+4 t0 dt ts))
  = state B (col ord0 S) k.
Proof.
move=> HF HL HK HI o Hu Hnz H0 HLs HSo HP t0 dt N ts i k.
have {}H0 : exists c, col ord0 S = middle S *m c by case: H0=> // HB; exact: (unit_first HL HB HI).
have [Eo|No] : sc_opt cfg = OptBool true \/ sc_opt cfg <> OptBool true.
  by case: (sc_opt cfg)=> [[]|z]; [left|right|right].
- exact: (sub_recover_opt HL HF HK HI Hu Hnz H0 Eo HSo HP).
- exact: (sub_recover HL HF HK HI Hu Hnz H0 No HLs HP).
Qed.

(** rescale_mode='auto' is documented, but no fit succeeds with it. *)
Theorem C51_auto_refuted cfg n m (S : 'M[C]_(n, m.+4)) : sc_rescale cfg = RsAuto C ->
  (forall z, sc_rank cfg = Model_Utils.RInt z -> fit_subspace np mrank cfg S = Err ValueError) /\
  (forall f, fit_subspace np mrank cfg S <> Ok f).
Proof.
move=> Ha.
have E r : sub_rank (mrank (projected np mrank S)) n (sc_rank cfg) = Ok r -> fit_subspace np mrank cfg S = Err ValueError.
  move=> Hr; rewrite /fit_subspace pastE futureE /sub_operator -/(projected np mrank S) /= Hr /=.
  by rewrite /eigenquantities /= Ha.
split=> [z Hz|f].
  by case: z Hz=> [|p|p] Hz; eapply E; rewrite Hz.
move=> Hf; have [r [e [v [Hr _]]]] := fit_subspace_inv Hf.
by move: Hf; rewrite (E _ Hr).
Qed.
(** A svd_rank given as a positive float smaller than the dimension of the data raises, an integer keeps that many columns. *)
Theorem C51_svd_rank cfg n m (S : 'M[C]_(n, m.+4)) :
  let r := minn (mrank (projected np mrank S)) n in
  (forall q, sc_rank cfg = Model_Utils.RNum q -> Qlt (inject_Z BinNums.Z0) q -> Qlt q (inject_Z (BinInt.Z.of_nat r)) ->
     fit_subspace np mrank cfg S = Err TypeError) /\
  (forall f, fit_subspace np mrank cfg S = Ok f -> so_k (sf_out f) =
     match sc_rank cfg with Model_Utils.RInt (BinNums.Zpos p) => minn (BinPos.Pos.to_nat p) r | _ => r end).
Proof.
move=> r; split.
- move=> q Hq H0 H1; rewrite /fit_subspace pastE futureE /sub_operator -/(projected np mrank S) /= /sub_rank Hq -/r.
  have -> : Model_Utils.Qltb (inject_Z BinNums.Z0) q by apply/Proofs_Utils.Qltb_lt.
  by have -> : Model_Utils.Qltb q (inject_Z (BinInt.Z.of_nat r)) by apply/Proofs_Utils.Qltb_lt.
- move=> f Hf; have [r' [e [v [Hr [_ Ef _]]]]] := fit_subspace_inv Hf.
  rewrite Ef /= reduced_r; have Hr' : (r' <= r)%N /\ r' = match sc_rank cfg with Model_Utils.RInt (BinNums.Zpos p) => minn (BinPos.Pos.to_nat p) r | _ => r end.
    move: Hr; rewrite /sub_rank -/r; case: (sc_rank cfg)=> [[|p|p]|q]; try by case=> <-.
      by case=> <-; split; rewrite ?geq_minl // minnC.
    by case: ifP=> // _ [<-].
  case: Hr'=> Hle <-; apply/minn_idPl; apply: leq_trans Hle (geq_minl _ _).
Qed.
End Main.
Print Assumptions C51_eigenpairs.
Print Assumptions C51_linear.
Print Assumptions C51_enough.
Print Assumptions C51_truncated.
Print Assumptions C51_reconstruction.
Print Assumptions C51_auto_refuted.
Print Assumptions C51_svd_rank.

(** ** The hypotheses are met: for every data set, with routines that do what they promise *)
Section Met.
Variable C : numClosedFieldType.
Definition exact_rank_of n m (X : 'M[C]_(n, m)) : 'I_(minn n m).+1 := inord (\rank X).
Lemma exact_rank_ofE n m (X : 'M[C]_(n, m)) : svd_rank_ok (ideal C) exact_rank_of X.
Proof.
split; first by case: (ideal_contracts C).
by rewrite /exact_rank_of inordK // ltnS leq_min rank_leq_row rank_leq_col.
Qed.
Definition plain so : sub_cfg C := SubCfg (Model_Utils.RInt (BinNums.Zneg BinNums.xH)) (RsNone C) so (OptBool false).
Lemma sub_met n m (S : 'M[C]_(n, m.+4)) so : so <> SoBad ->
  exists f, sub_fitted (ideal C) exact_rank_of (plain so) S f.
Proof.
move=> Hso; have [_ [HE _]] := ideal_contracts C.
have [f Hf] : exists f, fit_subspace (ideal C) exact_rank_of (plain so) S = Ok f.
  rewrite /fit_subspace /sub_operator /=.
  set A := least_square_operator _ _ _ _ _ _; have [e [v Ev]] := @ideal_eigen C (sub_op (plain so)) _ A erefl Hso.
  rewrite Ev /=; case: insubP=> [j _ _|//]; by eexists.
exists f; split=> //; try exact: exact_rank_ofE.
by move=> Ah _; case: (HE _ Ah).
Qed.

(** For every diagonalisable invertible system, any dimension and any data of it of sufficient length. *)
Theorem C51_end_to_end n m (B : 'M[C]_n) (S : 'M[C]_(n, m.+4)) so : so <> SoBad -> diagonal_in B -> B \in unitmx ->
  linear_data B S -> (n + 3 <= m.+4)%N ->
  exists f, sub_fitted (ideal C) exact_rank_of (plain so) S f /\
  forall t0 dt N (ts : 'I_N -> rat) (i : 'I_N) (k : nat), dt != 0 -> ts i = t0 + k%:R * dt ->
  let o := so_op (sf_out f) in
  col i (reconstruction (of_modes o) (dynamics (ideal C) (of_eigs o) (sf_b f) (OptBool false) m.+4 t0 dt ts))
  = state B (col ord0 S) k.
Proof.
move=> Hso HD HBu HL Hn; have [f HF] := sub_met S Hso; exists f; split=> //.
have [_ [HE [HLs [_ [HSo [_ [_ HP]]]]]]] := ideal_contracts C.
have HI := C51_enough HL Hn; have HK : keeps_all n (sc_rank (plain so)) by left.
have [[EX _] _ [EW _] _ _] := sub_facts HF.
have HB := BU_sub HL HF HK HI; have UU : adj (of_U (so_op (sf_out f))) *m of_U (so_op (sf_out f)) = 1%:M by case: EX.
have HDA := compress_diag UU HB HD; have HAu := compress_unit UU HB HBu.
have Hvu : of_vecs (so_op (sf_out f)) \in unitmx.
  have [r [e [v [_ [Ee Ef _]]]]] := fit_subspace_inv (sub_run HF); move: HDA {EX EW HB UU HAu HF}; rewrite Ef /= => HDA.
  by apply: (sorted_unit Ee erefl); apply: (HE _ _).2.
have Hnz := eigs_nz HAu Hvu EW.
move=> t0 dt N ts i k Hdt Ht o.
apply: (C51_reconstruction HF HL HK HI Hvu Hnz (or_introl HBu) _ _ HP Hdt Ht).
- by move=> k'; exact: HLs.
- by move=> P q; exact: HSo.
Qed.
End Met.
Print Assumptions C51_end_to_end.

(** snapshots (2^k, 3^k), five of them *)
Definition growth (C : numClosedFieldType) : 'M[C]_2 := diag_mx (\row_i i.+2%:R).
Definition growth_data (C : numClosedFieldType) : 'M[C]_(2, 5) := \matrix_(i, j) i.+2%:R ^+ j.
Example C51_growth : let AC := algCnumClosedField in exists f,
  sub_fitted (ideal AC) (@exact_rank_of AC) (plain AC SoAbs) (growth_data AC) f /\
  forall t0 dt N (ts : 'I_N -> rat) (i : 'I_N) (k : nat), dt != 0 -> ts i = t0 + k%:R * dt ->
  let o := so_op (sf_out f) in
  col i (reconstruction (of_modes o) (dynamics (ideal AC) (of_eigs o) (sf_b f) (OptBool false) 5 t0 dt ts))
  = state (growth AC) (const_mx 1) k.
Proof.
move=> AC.
have -> : const_mx 1 = col ord0 (growth_data AC) :> 'cV_2 by apply/colP=> i; rewrite !mxE expr0.
apply: C51_end_to_end=> //.
- by exists 1%:M, (\row_i i.+2%:R); rewrite unitmx1 mul1mx mulmx1.
- by rewrite unitmxE det_diag unitfE; apply/prodf_neq0=> i _; rewrite mxE pnatr_eq0.
- move=> j j' E; apply/colP=> i; rewrite mul_diag_mx !mxE E exprS //.
Qed.
