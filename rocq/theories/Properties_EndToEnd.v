(** * C14 without hypotheses on the calls: with routines that do what they promise, DMD recovers every
    diagonalisable invertible linear system from enough snapshots *)
From Coq Require Import QArith.
From mathcomp Require Import all_ssreflect all_fingroup all_algebra all_field.
From Verif Require Import Py LinAlg Model_Operator Spec_Operator Proofs_OpCore Proofs_Operator Proofs_Operator2 Proofs_Recovery Proofs_Krylov Ideal Proofs_Compress.
From Verif Require Import Proofs_Subspace.
From Verif Require Model_Utils.
Set Implicit Arguments. Unset Strict Implicit. Unset Printing Implicit Defensive.
Import Order.TTheory GRing.Theory Num.Theory.
Local Open Scope ring_scope.

Section EndToEnd.
Variable C : numClosedFieldType.

(** n + 1 snapshots determine the span *)
Theorem C14_enough n m (B : 'M[C]_n) (S : 'M[C]_(n, m.+1)) : linear_data B S -> (n <= m)%N ->
  exists c, col ord_max S = col' ord_max S *m c.
Proof.
move=> HL Hn; have [c Hc] := krylov B (col ord0 S) Hn; exists c.
rewrite (linear_pow HL) Hc; apply/colP=> i; rewrite summxE mxE; apply: eq_bigr=> j _.
rewrite !mxE mulrC; congr (_ * _).
have := congr1 (fun c : 'cV_n => c i 0) (linear_pow HL (lift ord_max j)); rewrite lift_max mxE => ->.
by rewrite mxE.
Qed.

Definition ranked exact so (r : nat) : dmd_cfg C :=
  DmdCfg (OpCfg (Model_Utils.RInt (BinInt.Z.of_nat r)) exact false (RsNone C) so None) 0 (OptBool false).

Theorem C14_end_to_end exact so n m (B : 'M[C]_n) (S : 'M[C]_(n, m.+1)) : so <> SoBad ->
  diagonal_in B -> B \in unitmx -> linear_data B S -> (n <= m)%N -> S != 0 ->
  let cfg := ranked exact so (\rank (col' ord_max S)) in
  exists f, recoverable (ideal C) cfg cfg B S f /\
  (forall t0 dt N (ts : 'I_N -> rat) (i : 'I_N) (k : nat), dt != 0 -> ts i = t0 + k%:R * dt ->
   col i (reconstruction (of_modes (df_op f))
           (dynamics (ideal C) (of_eigs (df_op f)) (df_b f) (OptBool false) m.+1 t0 dt ts)) = state B (col ord0 S) k) /\
  (forall k k' : 'I_m.+1, k' = k.+1 :> nat ->
   predict (ideal C) (of_modes (df_op f)) (of_eigs (df_op f)) (col k S) = col k' S).
Proof.
move=> Hso HD HBu HL Hn HS0 cfg; set X := col' ord_max S.
have [Hsvd [HE [HLs [HPi [HSo [_ [_ HP]]]]]]] := ideal_contracts C.
have Hr0 : (0 < \rank X)%N.
  rewrite lt0n mxrank_eq0; apply: contraNneq HS0 => X0; apply/eqP/matrixP=> i k; rewrite mxE.
  have [c Hc] := C14_enough HL Hn; rewrite -/X X0 mul0mx in Hc.
  case: (unliftP ord_max k)=> [k' ->|->].
    by have := congr1 (fun M : 'M_(n, m) => M i k') X0; rewrite !mxE.
  by have := congr1 (fun c : 'cV_n => c i 0) Hc; rewrite !mxE.
have [f [cfg' Hf]] : exists f cfg', fit (ideal C) cfg S = (cfg', Ok f).
  rewrite /fit /fit_pair /compute_tlsq /= /compute_operator.
  case: (np_svd (ideal C) _)=> [[U0 s0] Vh0] /=.
  set A := least_square_operator _ _ _ _ _ _.
  have [e [v Ev]] := @ideal_eigen C (d_op cfg) _ A erefl Hso.
  rewrite /fix_rescale /= Ev /=; case: insubP=> [j _ _|//]; by do 2 eexists.
have [HO _ Ht Hopt] := fit_inv Hf; rewrite /compute_tlsq /= in HO.
have Ec : cfg' = cfg.
  have [A [e [v [_ Hc _ _]]]] := compute_operator_inv HO.
  by move: Hc Ht Hopt; rewrite /fix_rescale /= => Hc Ht Hopt; rewrite /cfg /ranked -Ht -Hopt -Hc; case: (cfg').
rewrite {cfg'}Ec in Hf HO Ht Hopt.
have HX : exact_svd X (of_U (df_op f)) (of_s (df_op f)) (of_V (df_op f)).
  have [A [e [v [_ _ _ ->]]]] := compute_operator_inv HO; rewrite /= !take_colsE.
  apply: sel_full; [exact: Hsvd| |exact: leq_ord].
  rewrite /ideal_rank; case E: (BinInt.Z.of_nat (\rank X))=> [|p|p].
  - by move: Hr0; rewrite -[\rank X]Znat.Nat2Z.id E.
  - have -> : BinPos.Pos.to_nat p = \rank X by rewrite -[RHS]Znat.Nat2Z.id E.
    by rewrite inordK ?ltnS ?geq_minr //; apply/minn_idPl; rewrite leq_min rank_leq_row rank_leq_col.
  - by have := Zorder.Zle_0_nat (\rank X); rewrite E.
have [EX UU VV Hs] := HX.
have HY := linear_pair HL.
have HEf Ah : ahat (c_rescale (d_op cfg)) (of_Atilde (df_op f)) = Ok Ah -> eig_ok (ideal C) Ah by move=> _; exact: (HE _ Ah).1.
have [Hw _ _ HA _] := operator_facts HO I HEf.
have [c Hc] := C14_enough HL Hn.
have HI : of_U (df_op f) *m adj (of_U (df_op f)) *m col' ord0 S = col' ord0 S.
  have span k : of_U (df_op f) *m adj (of_U (df_op f)) *m col k S = col k S.
    case: (unliftP ord_max k)=> [k' ->|->].
      by rewrite -col'_lift colE mulmxA -(mulmxA _ (adj _)) (XU HX).
    by rewrite Hc mulmxA -(mulmxA _ (adj _)) (XU HX).
  apply/matrixP=> i j; have := congr1 (fun c : 'cV_n => c i 0) (span (lift ord0 j)); rewrite !mxE => <-.
  by apply: eq_bigr=> k _; rewrite !mxE.
have HB := BU HX HY HI; rewrite -(HA erefl) in HB.
have HDA := compress_diag UU HB HD; have HAu := compress_unit UU HB HBu.
have Hvu : of_vecs (df_op f) \in unitmx.
  have [A [e [v [_ _ He Eo]]]] := compute_operator_inv HO; move: HDA; rewrite {}Eo /= => HDA.
  by apply: (sorted_unit He erefl); apply: (HE _ _).2.
have Hnz := eigs_nz HAu Hvu Hw.
have R : recoverable (ideal C) cfg cfg B S f by split; [split=> //; exact: (Hsvd)|exists c].
exists f; split=> //; split.
- by move=> t0 dt N ts i k Hdt Htk; apply: (recovery_index R _ _ HP Hdt Htk)=> //; left.
- by move=> k k' E; apply: (recovery_predict R (HPi _ _ _) E).
Qed.
End EndToEnd.
Print Assumptions C14_enough.
Print Assumptions C14_end_to_end.

(** snapshots (2^k, 3^k), three of them *)
Example C14_end_to_end_case : let AC := algCnumClosedField in
  let B : 'M[AC]_2 := diag_mx (\row_i i.+2%:R) in let S : 'M[AC]_(2, 3) := \matrix_(i, j) i.+2%:R ^+ j in
  [/\ diagonal_in B, B \in unitmx, linear_data B S & S != 0].
Proof.
move=> AC B S; split.
- by exists 1%:M, (\row_i i.+2%:R); rewrite unitmx1 mul1mx mulmx1.
- by rewrite unitmxE det_diag unitfE; apply/prodf_neq0=> i _; rewrite mxE pnatr_eq0.
- by move=> j j' E; apply/colP=> i; rewrite mul_diag_mx !mxE E exprS.
- by apply/eqP=> /matrixP /(_ ord0 ord0) /eqP; rewrite !mxE expr0 oner_eq0.
Qed.
