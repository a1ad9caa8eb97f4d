(** * A controlled system that meets the hypotheses of C31

    x[k+1] = x[k]/2 + u[k]/2 from x0 = 1 with inputs 1, -1: snapshots 1, 1, 0. *)
From mathcomp Require Import all_ssreflect all_algebra all_field.
From Verif Require Import Py LinAlg Model_Operator Spec_Operator Model_DMDc Spec_DMDc Proofs_OpCore Proofs_Operator Proofs_Operator2 Proofs_DMDc Examples_Operator.
From Verif Require Model_Utils.
Set Implicit Arguments. Unset Strict Implicit. Unset Printing Implicit Defensive.
Import Order.TTheory GRing.Theory Num.Theory.
Local Open Scope ring_scope.

Local Notation AC := algCnumClosedField.
Local Notation h := (2%:R^-1 : algC).

Definition ex_A : 'M[AC]_1 := const_mx h.
Definition ex_B : 'M[AC]_(1, 1) := const_mx h.
Definition ex_Sc : 'M[AC]_(1, 3) := \matrix_(i, j) (j != 2%N :> nat)%:R.
Definition ex_Uc : 'M[AC]_(1, 3 - 1) := \matrix_(i, j) (-1) ^+ j.
Definition ex_cfg : dc_cfg := DcCfg (Model_Utils.RInt (BinNums.Zneg BinNums.xH)) (Model_Utils.RInt (BinNums.Zneg BinNums.xH)) 0 (OptBool false) 1.

Definition ex_rest (svd : forall n m, 'M[AC]_(n, m) -> 'M[AC]_(n, minn n m) * 'rV[AC]_(minn n m) * 'M[AC]_(minn n m, m)) : numpy AC := {|
  np_svd := svd;
  np_rank := fun k _ _ _ _ => ord_max;
  np_eig := fun r A => (\row_j A j j, 1%:M);
  np_sqrtm := fun r M => M;
  np_norm := fun n m X => sqrtC (frob2 X);
  np_lstsq := fun n r M y => (\matrix_(i, j) (M j i)^-1) *m y;
  np_solve := fun r P q => invmx P *m q;
  np_pinv := fun n r M => \matrix_(i, j) (M j i)^-1;
  np_power := ex_power |}.

(** B given: the only decomposition is that of (1 1) *)
Definition ex_npk : numpy AC := ex_rest (fun n m X => (const_mx 1, const_mx (sqrtC 2%:R), const_mx c2)).
(** B unknown: those of ((1 1) (1 -1)) and of (1 0) *)
Definition ex_npu : numpy AC := ex_rest (fun n m X =>
  if n == 2%N then (\matrix_(i, j) ((-1) ^+ (i * j) * c2), const_mx (sqrtC 2%:R), \matrix_(i, j) (i == j :> nat)%:R)
  else (const_mx 1, const_mx 1, \matrix_(i, j) (j == 0%N :> nat)%:R)).

Definition ex_opk : dc_op AC 1 :=
  match known_operator ex_npk ex_cfg (past 1 ex_Sc) (future 1 ex_Sc) ex_B (Mat ex_Uc) with
  | Ok o => o | Err _ => DcOp (0 : 'M_(1, 0)) 0 0 0 0 end.
Definition ex_fk : dc_fit AC 1 3 :=
  @DcFit AC 1 3 1 ex_Sc (Mat ex_Uc) 1 ex_B ex_opk (np_lstsq ex_npk (do_modes ex_opk) (col ord0 ex_Sc)).
Definition ex_oBu : dc_op AC 1 * 'M[AC]_(1, 1) :=
  match unknown_operator ex_npu ex_cfg (past 1 ex_Sc) (future 1 ex_Sc) (Mat ex_Uc) with
  | Ok o => o | Err _ => (DcOp (0 : 'M_(1, 0)) 0 0 0 0, 0) end.
Definition ex_fu : dc_fit AC 1 3 :=
  @DcFit AC 1 3 1 ex_Sc (Mat ex_Uc) 1 ex_oBu.2 ex_oBu.1 (np_lstsq ex_npu (do_modes ex_oBu.1) (col ord0 ex_Sc)).
Lemma ex_amp np o : dc_amplitudes np ex_cfg ex_Sc o = Ok (np_lstsq np (do_modes o) (col ord0 ex_Sc)).
Proof.
rewrite /dc_amplitudes /amplitudes [dc_opt _]/=.
have -> : col_index 3 0 = Some ord0 by rewrite -[0]/(Posz 0) /col_index insubT; congr Some; exact/val_inj.
by [].
Qed.
Lemma ex_fitk : fit ex_npk ex_cfg ex_Sc (Arr2 (Mat ex_Uc)) (Some (existT _ 1%N ex_B)) = Ok ex_fk.
Proof. by rewrite /fit /= ex_amp. Qed.
Lemma ex_fitu : fit ex_npu ex_cfg ex_Sc (Arr2 (Mat ex_Uc)) None = Ok ex_fu.
Proof. by rewrite /fit /= ex_amp. Qed.

Lemma sq2 : sqrtC 2%:R * c2 = 1 :> algC.
Proof. by rewrite /c2 divff // sqrtC_eq0 pnatr_eq0. Qed.
Lemma sq2_ge0 : 0 <= sqrtC 2%:R :> algC.
Proof. by rewrite sqrtC_ge0 ler0n. Qed.
Lemma sq2_nz : sqrtC 2%:R != 0 :> algC.
Proof. by rewrite sqrtC_eq0 pnatr_eq0. Qed.
Lemma h2 : h + h = 1.
Proof. exact: half2. Qed.

Lemma ex_past : past 1 ex_Sc = const_mx 1.
Proof. by apply/matrixP=> i; apply: ord2P; rewrite !mxE insubT //= mxE. Qed.
Lemma ex_future : future 1 ex_Sc = \matrix_(i, j) (j == 0%N :> nat)%:R.
Proof. by apply/matrixP=> i; apply: ord2P; rewrite !mxE insubT //= mxE. Qed.

Lemma mx11 (M N : 'M[AC]_1) : M 0 0 = N 0 0 -> M = N.
Proof. by move=> H; apply/matrixP=> i j; rewrite !ord1. Qed.

Lemma ex_driven : driven ex_A ex_B 1 (columns ex_Uc) (columns ex_Sc).
Proof.
move=> k; rewrite size_columns; case: k=> [|[|k]] // H; rewrite addn1;
  [rewrite (nth_columns ex_Sc (lift ord0 ord0)) (nth_columns ex_Sc ord0) (nth_columns ex_Uc ord0)
  |rewrite (nth_columns ex_Sc (lift ord0 (lift ord0 ord0))) (nth_columns ex_Sc (lift ord0 ord0)) (nth_columns ex_Uc (lift ord0 ord0))];
  apply: mx11; rewrite !mxE !big_ord1 !mxE /= ?expr0 ?expr1 ?mulr1 ?mulrN1 ?h2 ?subrr //.
Qed.

Lemma ex_pow np : np_power np = ex_power -> power_ok np.
Proof. by move=> E x z _; rewrite E ex_power_ok. Qed.

Lemma ex_keptX : kept ex_npk (past 1 ex_Sc) (Model_Utils.RInt (BinNums.Zneg BinNums.xH)).
Proof.
have S : svd_ok ex_npk (past 1 ex_Sc).
  rewrite ex_past; split=> /=.
  - by apply/matrixP=> i j; rewrite !mxE big_ord1 mul_mx_diag !mxE mul1r sq2.
  - by apply: mx11; rewrite !mxE big_ord1 !(adjE, mxE) conjC1 mul1r.
  - by apply: mx11; rewrite !mxE big_ord_recl big_ord1 !(adjE, mxE) c2_conj c2_sq h2.
  - by move=> j; rewrite mxE sq2_ge0.
  - by move=> i j _; rewrite !mxE.
split=> //; case: S => E _ _ _ _; rewrite compute_svdE /= !take_max; split; last by move=> j; rewrite mxE sq2_nz.
by rewrite adjK; exact: E.
Qed.

Lemma ex_keptY : kept ex_npu (future 1 ex_Sc) (Model_Utils.RInt (BinNums.Zneg BinNums.xH)).
Proof.
have S : svd_ok ex_npu (future 1 ex_Sc).
  rewrite ex_future; split=> /=.
  - by apply/matrixP=> i j; rewrite !mxE big_ord1 mul_mx_diag !mxE !mul1r.
  - by apply: mx11; rewrite !mxE big_ord1 !(adjE, mxE) conjC1 mul1r.
  - by apply: mx11; rewrite !mxE big_ord_recl big_ord1 !(adjE, mxE) /= conjC1 conjC0 mulr0 addr0 mul1r.
  - by move=> j; rewrite mxE ler01.
  - by move=> i j _; rewrite !mxE.
split=> //; case: S => E _ _ _ _; rewrite compute_svdE /= !take_max; split; last by move=> j; rewrite mxE oner_neq0.
by rewrite adjK; exact: E.
Qed.

Lemma ex_omega : col_mx (past 1 ex_Sc) ex_Uc = (\matrix_(i < 2, j < 2) ((-1) ^+ (i * j))) :> 'M[AC]_2.
Proof.
apply/matrixP=> i j; rewrite ex_past [RHS]mxE; move: i; apply: ord2P.
- have -> : ord0 = lshift 1 (ord0 : 'I_1) by exact/val_inj.
  by rewrite (col_mxEu (const_mx 1 : 'M[AC]_(1, 2))) mxE mul0n expr0.
- have -> : lift ord0 ord0 = rshift 1 (ord0 : 'I_1) by exact/val_inj.
  by rewrite (col_mxEd (const_mx 1 : 'M[AC]_(1, 2))) mxE mul1n.
Qed.
Lemma ex_HH : (\matrix_(i < 2, j < 2) ((-1) ^+ (i * j) * c2)) = ex_W.
Proof. by []. Qed.
Lemma ex_omegaW : (\matrix_(i < 2, j < 2) ((-1) ^+ (i * j))) = ex_W *m diag_mx (const_mx (sqrtC 2%:R)) :> 'M[AC]_2.
Proof. by apply/matrixP=> i j; rewrite mul_mx_diag !mxE -mulrA [c2 * _]mulrC sq2 mulr1. Qed.
Lemma ex_keptO : kept ex_npu (col_mx (past 1 ex_Sc) ex_Uc) (Model_Utils.RInt (BinNums.Zneg BinNums.xH)).
Proof.
have S : svd_ok ex_npu (col_mx (past 1 ex_Sc) ex_Uc).
  split=> /=; rewrite ?ex_delta ?ex_HH.
  - by rewrite ex_omega mulmx1 ex_omegaW.
  - exact: ex_WW.
  - by rewrite adj1 mulmx1.
  - by move=> j; rewrite mxE sq2_ge0.
  - by move=> i j _; rewrite !mxE.
split=> //; case: S => E _ _ _ _; rewrite compute_svdE /= !take_max; split; last by move=> j; rewrite mxE sq2_nz.
by rewrite adjK; exact: E.
Qed.

(** ** One-dimensional facts *)
Lemma eig11 svd (A : 'M[AC]_1) : eig_ok (ex_rest svd) A.
Proof.
split=> /=; first by apply: mx11; rewrite mulmx1 mul1mx !mxE.
by move=> j; rewrite big_ord1 !mxE (ord1 j) eqxx normr1 expr1n.
Qed.
Lemma pinv11 svd (M : 'M[AC]_1) : M 0 0 != 0 -> pinv_ok (ex_rest svd) M.
Proof.
move=> H.
have E : M *m np_pinv (ex_rest svd) M = 1%:M by apply: mx11; rewrite !mxE big_ord1 !mxE mulfV.
have E' : np_pinv (ex_rest svd) M *m M = 1%:M by apply: mx11; rewrite !mxE big_ord1 !mxE mulVf.
by split; rewrite ?E ?E' ?mul1mx ?adj1.
Qed.
Lemma mul11 (M N : 'M[AC]_1) : (M *m N) 0 0 = M 0 0 * N 0 0.
Proof. by rewrite mxE big_ord1. Qed.
Lemma mulC11 (M N : 'M[AC]_1) : M *m N = N *m M.
Proof. by apply: mx11; rewrite !mul11 mulrC. Qed.
Lemma h_nz : h != 0.
Proof. by rewrite invr_eq0 pnatr_eq0. Qed.

Lemma conj_by (Q A0 : 'M[AC]_1) : adj Q *m Q = 1%:M -> adj Q *m (A0 *m Q) = A0.
Proof. by move=> H; rewrite mulmxA (mulC11 (adj Q)) -mulmxA H mulmx1. Qed.
Lemma unit_nz (Q : 'M[AC]_1) : adj Q *m Q = 1%:M -> Q 0 0 != 0.
Proof.
move=> H; apply/eqP=> Z; have := congr1 (fun M : 'M_1 => M 0 0) H; rewrite mul11 Z mulr0 mxE eqxx => /eqP.
by rewrite eq_sym oner_eq0.
Qed.

Lemma ex_rowX : row_free (past 1 ex_Sc).
Proof.
apply/row_freeP; exists (const_mx h); rewrite ex_past; apply: mx11.
by rewrite !mxE big_ord_recl big_ord1 !mxE mul1r h2.
Qed.
Lemma ex_rowY : row_free (future 1 ex_Sc).
Proof.
apply/row_freeP; exists (\matrix_(i, j) (i == 0%N :> nat)%:R); rewrite ex_future; apply: mx11.
by rewrite !mxE big_ord_recl big_ord1 !mxE /= mul1r mulr0 addr0.
Qed.
Lemma ex_rowO : row_free (col_mx (past 1 ex_Sc) ex_Uc).
Proof.
rewrite ex_omega ex_omegaW; apply/row_freeP; exists (diag_mx (recip (const_mx (sqrtC 2%:R))) *m invmx ex_W).
rewrite -mulmxA (mulmxA (diag_mx _)) diag_recip ?mul1mx ?mulmxV ?ex_Wunit //.
by move=> j; rewrite mxE sq2_nz.
Qed.

(** ** The fit with B *)
Lemma ex_vecsk : do_vecs ex_opk = 1%:M.
Proof. by apply/matrixP=> i j; rewrite [LHS]mxE (nth_eig_pairs _ _ j) !mxE. Qed.
Lemma ex_eigsk : do_eigs ex_opk = \row_j do_Atilde ex_opk j j.
Proof. by apply/rowP=> j; rewrite [LHS]mxE (nth_eig_pairs _ _ j) !mxE. Qed.
Lemma ex_vecsu : do_vecs ex_oBu.1 = 1%:M.
Proof. by apply/matrixP=> i j; rewrite [LHS]mxE (nth_eig_pairs _ _ j) !mxE. Qed.
Lemma ex_eigsu : do_eigs ex_oBu.1 = \row_j do_Atilde ex_oBu.1 j j.
Proof. by apply/rowP=> j; rewrite [LHS]mxE (nth_eig_pairs _ _ j) !mxE. Qed.

Lemma ex_valk : do_Atilde ex_opk = ex_A /\ (do_modes ex_opk : 'M[AC]_1) 0 0 != 0.
Proof.
have [_ [s [V]]] := @known_parts AC ex_npk 1 3 1 1 ex_cfg ex_Sc ex_Uc ex_B ex_fk erefl ex_fitk erefl ex_keptX (eig11 _ _).
rewrite (driven_mx (isT : (1 <= 3)%N) ex_driven) addrK => -[ES EA EM _]; have [_ QQ _ _] := ES.
have EF : ex_A *m past 1 ex_Sc *m V *m diag_mx (recip s) = ex_A *m do_basis (ft_op ex_fk).
  by rewrite -!mulmxA; congr (_ *m _); rewrite mulmxA (span_U ES).
rewrite EF in EA EM; split; first by rewrite -[do_Atilde _]/(do_Atilde (ft_op ex_fk)) EA; exact: conj_by.
rewrite -[do_modes _]/(do_modes (ft_op ex_fk)) EM -[do_vecs _]/(do_vecs ex_opk) ex_vecsk mulmx1.
rewrite mul11; apply: mulf_neq0; [by rewrite mxE h_nz | exact: (unit_nz QQ)].
Qed.

Lemma ex_regk : regular_fit ex_npk ex_fk.
Proof.
have [EA EM] := ex_valk; split.
- exact: eig11.
- by rewrite -[do_vecs _]/(do_vecs ex_opk) ex_vecsk unitmx1.
- by move=> j; rewrite -[do_eigs _]/(do_eigs ex_opk) ex_eigsk EA !mxE h_nz.
- exact: pinv11.
- exact: ex_pow.
Qed.

Lemma ex_known : known_fit ex_npk ex_cfg ex_A ex_B ex_Sc ex_Uc ex_fk /\ row_free (past 1 ex_Sc).
Proof.
split; last exact: ex_rowX.
split=> //; last by exists (h%:M); rewrite mul_mx_scalar -mul_scalar_mx; congr (_ *m _); apply: mx11; rewrite !mxE.
- split; [exact: ex_fitk | by [] | by [] | exact: ex_driven | exact: ex_regk].
- exact: ex_keptX.
Qed.

(** ** The fit that looks for B *)
Lemma ex_valu : [/\ do_Atilde ex_oBu.1 = ex_A, (do_modes ex_oBu.1 : 'M[AC]_1) 0 0 != 0 & ex_oBu.2 = ex_B].
Proof.
have [_ [r [P [s [V]]]]] := @unknown_parts AC ex_npu 1 3 1 1 ex_cfg ex_Sc ex_Uc ex_fu erefl ex_fitu ex_keptO ex_keptY (eig11 _ _).
case=> [[EP EB] [QQ QY] EA EM _].
have EO : future 1 ex_Sc = row_mx ex_A ex_B *m col_mx (past 1 ex_Sc) ex_Uc by rewrite mul_row_col (driven_mx (isT : (1 <= 3)%N) ex_driven).
have PP : P *m adj P = 1%:M by apply: (row_free_inj ex_rowO); rewrite mul1mx -mulmxA; exact: (XU EP).
have EF : future 1 ex_Sc *m V *m diag_mx (recip s) *m adj P = row_mx ex_A ex_B.
  by rewrite EO -[_ *m V]mulmxA -[_ *m diag_mx _]mulmxA (span_U EP) -mulmxA PP mulmx1.
rewrite EF row_mxKl row_mxKr in EA EM EB.
split.
- by rewrite -[do_Atilde _]/(do_Atilde (ft_op ex_fu)) EA -mulmxA; exact: conj_by.
- rewrite -[do_modes _]/(do_modes (ft_op ex_fu)) EM -[do_vecs _]/(do_vecs ex_oBu.1) ex_vecsu mulmx1.
  rewrite mul11; apply: mulf_neq0; [by rewrite mxE h_nz | exact: (unit_nz QQ)].
- rewrite mulmxA (full_proj ex_rowY QY) mul1mx in EB.
  exact: (Eqdep_dec.inj_pair2_eq_dec _ PeanoNat.Nat.eq_dec _ _ _ _ EB).
Qed.
Lemma ex_regu : regular_fit ex_npu ex_fu.
Proof.
have [EA EM _] := ex_valu; split.
- exact: eig11.
- by rewrite -[do_vecs _]/(do_vecs ex_oBu.1) ex_vecsu unitmx1.
- by move=> j; rewrite -[do_eigs _]/(do_eigs ex_oBu.1) ex_eigsu EA !mxE h_nz.
- exact: pinv11.
- exact: ex_pow.
Qed.
Lemma ex_unknown : unknown_fit ex_npu ex_cfg ex_A ex_B ex_Sc ex_Uc ex_fu /\
  row_free (future 1 ex_Sc) /\ in_span (future 1 ex_Sc) (past 1 ex_Sc).
Proof.
split; last split; last 1 first.
- exists (\matrix_(i, j) (i == 0%N :> nat)%:R); rewrite ex_past ex_future; apply/matrixP=> i j.
  by rewrite !mxE big_ord_recl big_ord1 !mxE /= mul1r mul0r addr0.
- split; [|exact: ex_rowO|exact: ex_keptO|exact: ex_keptY].
  split; [exact: ex_fitu | by [] | by [] | exact: ex_driven | exact: ex_regu].
- exact: ex_rowY.
Qed.

(** ** Other time steps *)
Lemma ex_step t (k : nat) : k%:R <= tm_dt t / tm_dt0 t < k%:R + 1 ->
  step_matrix ex_npu t (do_modes (ft_op ex_fu)) (do_eigs (ft_op ex_fu)) = const_mx (h ^+ k).
Proof.
move=> Hk; have [EA EM _] := ex_valu; rewrite (@step_power _ _ _ _ _ _ _ (Posz k)) //; [|exact: ex_pow|by left].
apply: mx11; rewrite [LHS]mul11 [X in X * _]mul11 -[do_eigs _]/(do_eigs ex_oBu.1) ex_eigsu EA -[do_modes _]/(do_modes ex_oBu.1).
set m := do_modes _ in EM *; clearbody m.
have -> : diag_mx (\row_j (\row_j0 ex_A j0 j0) 0 j ^ k) 0 0 = h ^+ k by rewrite !mxE eqxx mulr1n.
have -> : np_pinv ex_npu m 0 0 = (m 0 0)^-1 by rewrite mxE.
by rewrite mxE mulrAC mulfV // mul1r.
Qed.

Lemma ex_x0 : nth 0 (columns ex_Sc) 0 = const_mx 1.
Proof. by rewrite (nth_columns ex_Sc ord0); apply: mx11; rewrite !mxE. Qed.
Lemma ratP2 (a b c : rat) : a < b -> b <= c -> a < b <= c.
Proof. by move=> -> ->. Qed.

Lemma ex_recon t (k p : nat) (V : 'M[AC]_(1, p)) : n_steps t = p.+1 -> k%:R <= tm_dt t / tm_dt0 t < k%:R + 1 ->
  exists d, reconstructed_data ex_npu ex_fu (do_modes (ft_op ex_fu)) (do_eigs (ft_op ex_fu)) t (Some (Arr2 (Mat V))) = Ok d /\
    nth 0 d 0 = const_mx 1 /\ driven (const_mx (h ^+ k)) ex_B 1 (columns V) d.
Proof.
move=> Ht Hk; have [_ _ EB] := ex_valu.
have EB' : existT (fun q => 'M[AC]_(1, q)) (ft_q ex_fu) (ft_B ex_fu) = existT _ 1%N ex_B by rewrite -EB.
have [d [Hd [S1 S2 S3]]] := recon_spec_eq ex_npu (do_modes (ft_op ex_fu)) (do_eigs (ft_op ex_fu)) V (conj (isT : (0 < ft_lag ex_fu)%N) (isT : (ft_lag ex_fu <= 3)%N)) Ht EB'.
rewrite (ex_step Hk) in S3; exists d; split; first exact: Hd.
by split; last exact: S3; rewrite (S2 0%N isT) -ex_x0.
Qed.

Lemma ex_frozen : exists d,
  unknown_fit ex_npu ex_cfg ex_A ex_B ex_Sc ex_Uc ex_fu /\ row_free (future 1 ex_Sc) /\
  reconstructed_data ex_npu ex_fu (do_modes (ft_op ex_fu)) (do_eigs (ft_op ex_fu)) (Times 0 1 2%:R^-1 1)
    (Some (Arr2 (Mat (0 : 'M_(1, 2))))) = Ok d /\
  nth 0 d 2 = nth 0 d 0 /\ nth 0 d 2 <> ex_A *m nth 0 d 0.
Proof.
have Ht : n_steps (Times 0 1 2%:R^-1 1) = 3%N by apply: n_steps_count.
have [d [Hd [E0 D]]] := @ex_recon (Times 0 1 2%:R^-1 1) 0 2 0 Ht isT.
exists d; have [U [R _]] := ex_unknown.
split; first exact: U.
split; first exact: R.
split; first exact: Hd.
have B0 k : ex_B *m nth 0 (columns (0 : 'M[AC]_(1, 2))) k = 0.
  case: (ltnP k 2)=> H; first by rewrite (nth_columns _ (Ordinal H)) col0 mulmx0.
  by rewrite nth_default; [exact: mulmx0 | rewrite size_columns].
have I1 : const_mx (h ^+ 0) = 1%:M :> 'M[AC]_1 by apply: mx11; rewrite !mxE expr0.
have D1 := D 0%N; rewrite size_columns I1 mul1mx B0 addr0 in D1.
have D2 := D 1%N; rewrite size_columns I1 mul1mx B0 addr0 in D2.
have E : nth 0 d 2 = nth 0 d 0 by rewrite (D2 isT) (D1 isT).
split; first exact: E.
rewrite E E0 => /(congr1 (fun M : 'M_1 => M 0 0)); rewrite mul11 !mxE mulr1 => H.
by have := h2; rewrite -H => /eqP; rewrite -subr_eq0 addrK oner_eq0.
Qed.

Lemma ex_double : exists d,
  reconstructed_data ex_npu ex_fu (do_modes (ft_op ex_fu)) (do_eigs (ft_op ex_fu)) (Times 0 2%:R 2%:R 1)
    (Some (Arr2 (Mat (const_mx 1 : 'M_(1, 1))))) = Ok d /\
  let x0 := nth 0 d 0 in let u := const_mx 1 : 'cV[algC]_1 in
  nth 0 d 1 <> ex_A *m (ex_A *m x0 + ex_B *m u) + ex_B *m u.
Proof.
have Ht : n_steps (Times 0 2%:R 2%:R 1) = 2%N by apply: n_steps_count.
have [d [Hd [E0 D]]] := @ex_recon (Times 0 2%:R 2%:R 1) 2 1 (const_mx 1) Ht isT.
exists d; split; first exact: Hd.
have D1 := D 0%N; rewrite size_columns in D1; move/(_ isT): D1 => D1.
move=> x0 u; rewrite -[1%N]/(0 + 1)%N {1}D1 /x0 E0 (nth_columns _ (ord0 : 'I_1)).
move=> /(congr1 (fun M : 'M_1 => M 0 0)); rewrite !(mxE, big_ord1) !mulr1 h2 mulr1 => /addIr H.
have : h * h = h * 1 by rewrite mulr1 -[RHS]H -expr2.
move/(mulfI h_nz)=> E; have := h2; rewrite E => /eqP; rewrite -subr_eq0 addrK oner_eq0 //.
Qed.
