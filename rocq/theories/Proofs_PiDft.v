(** * Discrete Fourier transforms: unitarity, and the matrices they (block-)diagonalise *)
From mathcomp Require Import all_ssreflect all_algebra.
From Verif Require Import Py LinAlg Model_Operator Spec_Operator Model_PiDMD Spec_PiDMD Proofs_PiAlg.
Set Implicit Arguments. Unset Strict Implicit. Unset Printing Implicit Defensive.
Import Order.TTheory GRing.Theory Num.Theory.
Local Open Scope ring_scope.

Section Dft.
Variable C : numClosedFieldType.

(** ** Roots of unity *)
Record good_root (N : nat) (z : C) : Prop := {
  gr_pos : (0 < N)%N; gr_one : z ^+ N = 1; gr_inj : forall i j, z ^+ i = z ^+ j -> i = j %[mod N] }.
Lemma prim_good N z : N.-primitive_root z -> good_root N z.
Proof.
move=> H; split; [exact: prim_order_gt0 H|exact: prim_expr_order|].
by move=> i j /eqP; rewrite (eq_prim_root_expr H) => /eqP.
Qed.
Lemma good_inv N z : good_root N z -> good_root N z^-1.
Proof.
case=> H0 H1 H2; split=> //; first by rewrite exprVn H1 invr1.
by move=> i j; rewrite !exprVn => /invr_inj; exact: H2.
Qed.
Section Root.
Variables (N : nat) (z : C).
Hypothesis H : good_root N z.
Lemma good_norm : `|z| = 1.
Proof.
case: H => H0 H1 _; have := congr1 Num.norm H1; rewrite normrX normr1 => /eqP.
by rewrite pexpr_eq1 ?normr_ge0 // => /eqP.
Qed.
Lemma good_mod i : z ^+ (i %% N) = z ^+ i.
Proof. by rewrite [in RHS](divn_eq i N) exprD mulnC exprM (gr_one H) expr1n mul1r. Qed.
Lemma good_eq i j : i = j %[mod N] -> z ^+ i = z ^+ j.
Proof. by move=> E; rewrite -good_mod E good_mod. Qed.
Lemma good_normX i : `|z ^+ i| = 1.
Proof. by rewrite normrX good_norm expr1n. Qed.
Lemma good_conj i : (z ^+ i)^* = z^-1 ^+ i.
Proof. by rewrite exprVn invC_norm good_normX expr1n invr1 mul1r. Qed.
End Root.
Lemma conj_swap (u v x y : C) : `|u| = 1 -> `|v| = 1 -> x * v = y * u -> u^* * x = v^* * y.
Proof.
move=> hu hv E.
have cu : u^* * u = 1 by rewrite -normCKC hu expr1n.
have cv : v^* * v = 1 by rewrite -normCKC hv expr1n.
by rewrite -[x]mulr1 -cv [v^* * v]mulrC (mulrA x) E -(mulrA y) (mulrCA u^*) (mulrA u^*) cu mul1r mulrC.
Qed.

(** ** Matrices invariant under a shift of the indexes *)
Section Shift.
Variables (n : nat) (W : 'M[C]_n) (sg : 'I_n -> 'I_n) (chi : 'I_n -> C).
Hypothesis sg_inj : injective sg.
Hypothesis W_sg : forall k a, W k (sg a) = chi k * W k a.
Hypothesis chi1 : forall k, `|chi k| = 1.
Lemma shift_diag (B : 'M[C]_n) : (forall a b, B (sg a) (sg b) = B a b) ->
  forall k l, chi k != chi l -> (W *m B *m adj W) k l = 0.
Proof.
move=> inv k l ne.
have E : (W *m B *m adj W) k l = chi k * (chi l)^* * (W *m B *m adj W) k l.
  rewrite {1}mxE (reindex_inj sg_inj) mxE mulr_sumr; apply: eq_bigr=> b _.
  have -> : (W *m B) k (sg b) = chi k * (W *m B) k b.
    rewrite mxE (reindex_inj sg_inj) mxE mulr_sumr; apply: eq_bigr=> a _.
    by rewrite W_sg inv mulrA.
  by rewrite !adjE W_sg rmorphM mulrACA.
apply/eqP; apply: contraNT ne => nz; apply/eqP.
have h : chi k * (chi l)^* = 1.
  by apply: (mulIf nz); rewrite mul1r -E.
have hl : (chi l)^* * chi l = 1 by rewrite -normCKC chi1 expr1n.
by rewrite -[LHS]mulr1 -hl mulrA h mul1r.
Qed.
Lemma shift_orth k l : chi k != chi l -> (W *m adj W) k l = 0.
Proof.
move=> ne; have := @shift_diag 1%:M _ k l ne; rewrite mulmx1; apply.
by move=> a b; rewrite !mxE (inj_eq sg_inj).
Qed.
End Shift.

(** ** Best fits through a unitary change of coordinates *)
Lemma unitary_best n m (P Q : 'M[C]_n -> Prop) (T D : 'M[C]_n) (X Y : 'M[C]_(n, m)) :
  T *m adj T = 1%:M -> (forall B, P B -> Q (T *m B *m adj T)) -> P (adj T *m D *m T) ->
  best Q (T *m X) (T *m Y) D -> best P X Y (adj T *m D *m T).
Proof.
move=> TT PQ pA [_ H]; split=> // B pB.
have TT' := mulmx1C TT.
have E (A D' : 'M[C]_n) : A = adj T *m D' *m T -> frob2 (Y - A *m X) = frob2 (T *m Y - D' *m (T *m X)).
  move=> ->; rewrite -(frob2_iso (W := T) _ TT') mulmxBr; congr (frob2 (_ - _)).
  by rewrite -!mulmxA (mulmxA T) TT mul1mx.
rewrite (E _ D erefl) (E B (T *m B *m adj T)); first by apply: H; apply: PQ.
by rewrite -!mulmxA TT' mulmx1 mulmxA TT' mul1mx.
Qed.
(** diagonal matrices with admissible entries *)
Definition diag_adm (o : circ_opt) n (D : 'M[C]_n) : Prop := exists2 e, D = diag_mx e & forall l, admissible o (e 0 l).
Lemma diag_best o n m (F G : 'M[C]_(n, m)) (c d : 'rV[C]_n) :
  (forall l, c 0 l * row_norm2 F l = \sum_t (F l t)^* * G l t) -> (forall l, d 0 l = apply_opt o (c 0 l)) ->
  best (diag_adm o (n := n)) F G (diag_mx d).
Proof.
move=> Hc Hd; split; first by exists d => // l; rewrite Hd; apply: opt_admissible.
move=> B [e -> He]; apply: rows_best=> l.
have R (x : 'rV[C]_n) : row l (G - diag_mx x *m F) = row l G - x 0 l *: row l F.
  by apply/rowP=> t; rewrite mul_diag_mx !mxE.
rewrite !R; apply: (row_fit_le (c := c 0 l)).
  rewrite /frob2 big_ord1; under [X in _ * X]eq_bigr => t _ do rewrite mxE.
  by rewrite Hc; apply: eq_bigr=> t _; rewrite !mxE.
by rewrite Hd; apply: opt_nearest.
Qed.
Lemma diag_conj n (T : 'M[C]_n) (e : 'rV[C]_n) o : T *m adj T = 1%:M -> (forall l, admissible o (e 0 l)) ->
  opt_holds o (adj T *m diag_mx e *m T).
Proof.
move=> TT He; have TT' := mulmx1C TT.
have A : adj (adj T *m diag_mx e *m T) = adj T *m diag_mx (map_mx conjC e) *m T.
  by rewrite !adjM adjK adj_diag -!mulmxA.
case: o He => //= He.
- rewrite /unitary A -!mulmxA (mulmxA T) TT mul1mx (mulmxA (diag_mx _)) mulmx_diag.
  have -> : diag_mx (\row_i (map_mx conjC e 0 i * e 0 i)) = 1%:M.
    apply/matrixP=> i j; rewrite !mxE; case: eqP => // ->; rewrite mulr1n -normCKC He expr1n //.
  by rewrite mul1mx.
- rewrite /hermitian A; congr (_ *m diag_mx _ *m _); apply/rowP=> i; rewrite mxE; exact: He.
- rewrite /skew_hermitian A; have -> : map_mx conjC e = - e by apply/rowP=> i; rewrite mxE He mxE.
  by rewrite linearN /= mulmxN mulNmx.
Qed.
Lemma diag_adm_of o n (B E : 'M[C]_n) (T : 'M[C]_n) : T *m adj T = 1%:M -> E = T *m B *m adj T ->
  (forall k l, k != l -> E k l = 0) -> opt_holds o B -> diag_adm o E.
Proof.
move=> TT EE off ho; have TT' := mulmx1C TT.
have ED : E = diag_mx (\row_l E l l).
  by apply/matrixP=> k l; rewrite !mxE; case: eqP => [->|/eqP ne]; rewrite ?mulr1n ?mulr0n // off.
exists (\row_l E l l) => // l; case: o ho => //= ho; rewrite mxE.
- have U : adj E *m E = 1%:M.
    rewrite EE !adjM adjK -!mulmxA (mulmxA (adj T)) TT' mul1mx (mulmxA (adj B)) ho mul1mx //.
  have := congr1 (fun M : 'M_n => M l l) U; rewrite [RHS]mxE eqxx ED adj_diag mulmx_diag !mxE eqxx !mulr1n.
  by rewrite -normCKC => /eqP; rewrite sqrp_eq1 ?normr_ge0 // => /eqP.
- have U : adj E = E by rewrite EE !adjM adjK ho -!mulmxA.
  by have := congr1 (fun M : 'M_n => M l l) U; rewrite adjE.
- have U : adj E = - E by rewrite EE !adjM adjK ho mulNmx mulmxN -!mulmxA.
  by have := congr1 (fun M : 'M_n => M l l) U; rewrite adjE mxE.
Qed.

(** ** The one-dimensional transform *)
Definition Fdft (z : C) (N : nat) : 'M[C]_N := (sqrtC N%:R)^-1 *: \matrix_(k, a) z ^+ (k * a).
Lemma sqrt_inv_sq N : (0 < N)%N -> (sqrtC N%:R)^-1 * ((sqrtC N%:R)^-1)^* = N%:R^-1 :> C.
Proof. by move=> H; rewrite geC0_conj ?invr_ge0 ?sqrtC_ge0 ?ler0n // -invfM -expr2 sqrtCK. Qed.
Section One.
Variables (N : nat) (z : C).
Hypothesis H : good_root N z.
Lemma rot_lt (a : 'I_N) : ((a + 1) %% N < N)%N.
Proof. by rewrite ltn_mod (gr_pos H). Qed.
Definition rot (a : 'I_N) : 'I_N := Ordinal (rot_lt a).
Lemma rot_inj : injective rot.
Proof.
move=> a b /(congr1 val) /= /eqP; rewrite eqn_modDr !modn_small ?ltn_ord // => /eqP ?.
exact: val_inj.
Qed.
Lemma Fdft_rot k a : Fdft z N k (rot a) = z ^+ k * Fdft z N k a.
Proof.
rewrite !mxE /= mulrCA; congr (_ * _); rewrite -exprD; apply: (good_eq H).
by rewrite modnMmr mulnDr muln1 addnC.
Qed.
Lemma good_neq (k l : 'I_N) : k != l -> z ^+ k != z ^+ l.
Proof. by apply: contraNneq => /(gr_inj H); rewrite !modn_small ?ltn_ord // => /val_inj ->. Qed.
Lemma Fdft_unitary : Fdft z N *m adj (Fdft z N) = 1%:M.
Proof.
apply/matrixP=> k l; have [<-|ne] := eqVneq k l; last first.
  rewrite (shift_orth rot_inj Fdft_rot) ?good_neq //; last by move=> j; apply: (good_normX H).
  by rewrite mxE (negbTE ne).
rewrite !mxE eqxx (eq_bigr (fun _ => N%:R^-1)) => [|a _].
  by rewrite sumr_const card_ord -[LHS]mulr_natr mulVf // pnatr_eq0 -lt0n (gr_pos H).
rewrite adjE !mxE rmorphM /= mulrACA sqrt_inv_sq ?(gr_pos H) // -normCK (good_normX H) expr1n mulr1 //.
Qed.
Lemma circ_rot (B : 'M[C]_N) : is_circulant B -> forall a b, B (rot a) (rot b) = B a b.
Proof. by move=> HB a b; apply: HB; rewrite /= modnDml modnDmr -addnA (addnC 1%N). Qed.
Lemma circ_diag (B : 'M[C]_N) : is_circulant B ->
  forall k l, k != l -> (Fdft z N *m B *m adj (Fdft z N)) k l = 0.
Proof.
move=> HB k l ne; apply: (shift_diag rot_inj Fdft_rot) => //; last exact: good_neq.
- by move=> j; apply: (good_normX H).
- exact: circ_rot.
Qed.
Lemma diag_circ (d : 'rV[C]_N) : is_circulant (adj (Fdft z N) *m diag_mx d *m Fdft z N).
Proof.
move=> i j i' j' E; rewrite !mul_mx_diag mxE [RHS]mxE; apply: eq_bigr=> k _.
rewrite [X in X * _]mxE [in RHS]mxE !adjE !mxE.
rewrite !rmorphM /= ![_ * d 0 k * _]mulrAC; congr (_ * _).
rewrite mulrACA [RHS]mulrACA; congr (_ * _); apply: conj_swap; rewrite ?(good_normX H) //.
rewrite -!exprD; apply: (good_eq H); rewrite -!mulnDr -modnMmr -[in RHS]modnMmr.
by congr ((_ * _) %% _)%N; rewrite addnC -E addnC.
Qed.
End One.

(** ** Positions a = i + p * j, i < p, j < q *)
Section Two.
Variables (n p q : nat).
Hypotheses (p0 : (0 < p)%N) (q0 : (0 < q)%N) (npq : (p * q)%N = n).
Implicit Types a b k l : 'I_n.
Lemma idx_eq a b : (a %% p = b %% p)%N -> (a %/ p = b %/ p)%N -> a = b.
Proof. by move=> E1 E2; apply/val_inj; rewrite /= (divn_eq a p) (divn_eq b p) E1 E2. Qed.
Lemma div_lt a : (a %/ p < q)%N.
Proof. by rewrite ltn_divLR // mulnC npq. Qed.
Lemma mod_lt a : (a %% p < p)%N.
Proof. by rewrite ltn_mod. Qed.
Lemma n0 : (0 < n)%N.
Proof. by rewrite -npq muln_gt0 p0. Qed.
(** next block *)
Lemma nextb_lt a : ((a + p) %% n < n)%N.
Proof. by rewrite ltn_mod n0. Qed.
Definition nextb a : 'I_n := Ordinal (nextb_lt a).
Lemma nextb_mod a : (nextb a %% p = a %% p)%N.
Proof. by rewrite /= modn_dvdm ?modnDr // -npq dvdn_mulr. Qed.
Lemma nextb_div a : (nextb a %/ p = (a %/ p + 1) %% q)%N.
Proof.
rewrite /= (_ : (a + p) %% n = (a + p) %% (q * p))%N; last by rewrite mulnC npq.
by rewrite -modn_divl divnDr // divnn p0.
Qed.
Lemma nextb_inj : injective nextb.
Proof.
move=> a b E; apply: idx_eq; first by rewrite -nextb_mod E nextb_mod.
have := nextb_div a; rewrite E nextb_div => /eqP; rewrite eq_sym eqn_modDr !modn_small ?div_lt // => /eqP //.
Qed.
(** next position inside the block *)
Lemma nexti_lt a : ((a %/ p) * p + (a %% p + 1) %% p < n)%N.
Proof.
apply: (@leq_trans ((a %/ p) * p + p)); first by rewrite ltn_add2l ltn_mod.
by have := div_lt a; move: (a %/ p)%N => j H; rewrite addnC -mulSn -npq mulnC leq_mul2l H orbT.
Qed.
Definition nexti a : 'I_n := Ordinal (nexti_lt a).
Lemma nexti_mod a : (nexti a %% p = (a %% p + 1) %% p)%N.
Proof. by rewrite /= modnMDl modn_mod. Qed.
Lemma nexti_div a : (nexti a %/ p = a %/ p)%N.
Proof. by rewrite /= divnMDl // [X in (_ + X)%N]divn_small ?addn0 // ltn_mod. Qed.
Lemma nexti_inj : injective nexti.
Proof.
move=> a b E; apply: idx_eq; last by rewrite -nexti_div E nexti_div.
have := nexti_mod a; rewrite E nexti_mod => /eqP; rewrite eq_sym eqn_modDr !modn_mod => /eqP //.
Qed.
Lemma idx_neq k l : k != l -> (k %/ p != l %/ p)%N || (k %% p != l %% p)%N.
Proof. by move=> ne; rewrite -negb_and; apply: contraNN ne => /andP[/eqP E1 /eqP E2]; apply/eqP; apply: idx_eq. Qed.

(** *** Two-dimensional transform *)
Variables (zp zq : C).
Hypotheses (Hp : good_root p zp) (Hq : good_root q zq).
Definition Ffft2 : 'M[C]_n :=
  (sqrtC n%:R)^-1 *: \matrix_(k, a) (zp ^+ ((k %% p) * (a %% p)) * zq ^+ ((k %/ p) * (a %/ p))).
Lemma Ffft2E k a : Ffft2 k a = (sqrtC n%:R)^-1 * (zp ^+ ((k %% p) * (a %% p)) * zq ^+ ((k %/ p) * (a %/ p))).
Proof. by rewrite !mxE. Qed.
Lemma Ffft2_nextb k a : Ffft2 k (nextb a) = zq ^+ (k %/ p) * Ffft2 k a.
Proof.
rewrite !Ffft2E nextb_mod nextb_div [RHS]mulrCA; congr (_ * _); rewrite [RHS]mulrCA; congr (_ * _).
by rewrite -exprD; apply: (good_eq Hq); rewrite modnMmr mulnDr muln1 addnC.
Qed.
Lemma Ffft2_nexti k a : Ffft2 k (nexti a) = zp ^+ (k %% p) * Ffft2 k a.
Proof.
rewrite !Ffft2E nexti_mod nexti_div [RHS]mulrCA; congr (_ * _); rewrite [RHS]mulrA; congr (_ * _).
by rewrite -exprD; apply: (good_eq Hp); rewrite modnMmr mulnDr muln1 addnC.
Qed.
Lemma neq_div k l : (k %/ p != l %/ p)%N -> zq ^+ (k %/ p) != zq ^+ (l %/ p).
Proof. by apply: contraNneq => /(gr_inj Hq); rewrite !modn_small ?div_lt // => ->. Qed.
Lemma neq_mod k l : (k %% p != l %% p)%N -> zp ^+ (k %% p) != zp ^+ (l %% p).
Proof. by apply: contraNneq => /(gr_inj Hp); rewrite !modn_mod => ->. Qed.
Lemma Ffft2_unitary : Ffft2 *m adj Ffft2 = 1%:M.
Proof.
apply/matrixP=> k l; have [<-|ne] := eqVneq k l; last first.
  rewrite [RHS]mxE (negbTE ne); case/orP: (idx_neq ne) => h.
  - apply: (shift_orth nextb_inj Ffft2_nextb); [by move=> j; apply: (good_normX Hq)|exact: neq_div].
  - apply: (shift_orth nexti_inj Ffft2_nexti); [by move=> j; apply: (good_normX Hp)|exact: neq_mod].
rewrite !mxE eqxx (eq_bigr (fun _ => n%:R^-1)) => [|a _].
  by rewrite sumr_const card_ord -[LHS]mulr_natr mulVf // pnatr_eq0 -lt0n n0.
rewrite adjE !mxE rmorphM /= mulrACA sqrt_inv_sq ?n0 // -normCK normrM (good_normX Hp) (good_normX Hq) mulr1 expr1n mulr1 //.
Qed.
Lemma bccb_diag (B : 'M[C]_n) : is_bccb p q B -> forall k l, k != l -> (Ffft2 *m B *m adj Ffft2) k l = 0.
Proof.
move=> HB k l /idx_neq /orP[h|h].
- apply: (shift_diag nextb_inj Ffft2_nextb); [by move=> j; apply: (good_normX Hq)| |exact: neq_div].
  move=> a b; apply: HB; first by rewrite !nextb_mod.
  by rewrite !nextb_div modnDml modnDmr -addnA (addnC 1%N).
- apply: (shift_diag nexti_inj Ffft2_nexti); [by move=> j; apply: (good_normX Hp)| |exact: neq_mod].
  move=> a b; apply: HB; last by rewrite !nexti_div.
  by rewrite !nexti_mod; move: (a %% p)%N (b %% p)%N => x y; rewrite modnDml modnDmr -addnA (addnC 1%N).
Qed.
Lemma diag_bccb (d : 'rV[C]_n) : is_bccb p q (adj Ffft2 *m diag_mx d *m Ffft2).
Proof.
move=> a b a' b' E1 E2; rewrite !mul_mx_diag mxE [RHS]mxE; apply: eq_bigr=> k _.
rewrite [X in X * _]mxE [in RHS]mxE !adjE !mxE !rmorphM /= ![_ * d 0 k * _]mulrAC; congr (_ * _).
rewrite mulrACA [RHS]mulrACA; congr (_ * _); rewrite mulrACA [RHS]mulrACA; congr (_ * _).
- apply: conj_swap; rewrite ?(good_normX Hp) // -!exprD; apply: (good_eq Hp).
  by rewrite -!mulnDr -modnMmr -[in RHS]modnMmr; congr ((_ * _) %% _)%N; rewrite addnC -E1 addnC.
- apply: conj_swap; rewrite ?(good_normX Hq) // -!exprD; apply: (good_eq Hq).
  by rewrite -!mulnDr -modnMmr -[in RHS]modnMmr; congr ((_ * _) %% _)%N; rewrite addnC -E2 addnC.
Qed.

(** *** Transform across the blocks *)
Definition Ffftb : 'M[C]_n :=
  (sqrtC q%:R)^-1 *: \matrix_(k, a) if (k %% p == a %% p)%N then zq ^+ ((k %/ p) * (a %/ p)) else 0.
Lemma FfftbE k a : Ffftb k a = (sqrtC q%:R)^-1 * if (k %% p == a %% p)%N then zq ^+ ((k %/ p) * (a %/ p)) else 0.
Proof. by rewrite !mxE. Qed.
Lemma Ffftb_nextb k a : Ffftb k (nextb a) = zq ^+ (k %/ p) * Ffftb k a.
Proof.
rewrite !FfftbE nextb_mod nextb_div [RHS]mulrCA; congr (_ * _); case: ifP; rewrite ?mulr0 // => _.
by rewrite -exprD; apply: (good_eq Hq); rewrite modnMmr mulnDr muln1 addnC.
Qed.
Lemma Ffftb_mod k a : (k %% p != a %% p)%N -> Ffftb k a = 0.
Proof. by move=> ne; rewrite !mxE (negbTE ne) mulr0. Qed.
Lemma count_mod i : (i < p)%N -> (\sum_(a < p * q) ((i == a %% p) : nat) = q)%N.
Proof.
move=> ip; elim: (q) => [|q' IH]; first by rewrite muln0 big_ord0.
rewrite mulnS addnC big_split_ord /= IH -[RHS]addn1; congr addn.
rewrite (bigD1 (Ordinal ip)) //= mulnC modnMDl modn_small // eqxx big1 ?addn0 // => k ne.
rewrite modnMDl modn_small //; apply/eqP; rewrite eqb0; apply: contraNN ne => /eqP E; apply/eqP/val_inj.
by rewrite /= -E.
Qed.
Lemma count_modn i : (i < p)%N -> (\sum_(a < n) ((i == a %% p) : nat) = q)%N.
Proof. by move=> ip; rewrite -[in LHS]npq count_mod. Qed.
Lemma Ffftb_unitary : Ffftb *m adj Ffftb = 1%:M.
Proof.
apply/matrixP=> k l; have [<-|ne] := eqVneq k l; last first.
  rewrite [RHS]mxE (negbTE ne); case/orP: (idx_neq ne) => h.
  - apply: (shift_orth nextb_inj Ffftb_nextb); [by move=> j; apply: (good_normX Hq)|exact: neq_div].
  - rewrite mxE big1 // => a _; rewrite adjE; have [E|ka] := eqVneq (k %% p)%N (a %% p)%N; last by rewrite (Ffftb_mod ka) mul0r.
    by rewrite (@Ffftb_mod l a) ?rmorph0 ?mulr0 // -E eq_sym.
rewrite !mxE eqxx (eq_bigr (fun a : 'I_n => ((k %% p == a %% p)%N : nat)%:R * q%:R^-1)) => [|a _].
  rewrite -mulr_suml -natr_sum count_modn ?mod_lt //.
  by rewrite mulfV // pnatr_eq0 -lt0n.
rewrite adjE !mxE rmorphM /= mulrACA sqrt_inv_sq //; case: ifP; last by rewrite !mul0r mulr0.
by rewrite -normCK (good_normX Hq) expr1n mulr1 mul1r.
Qed.
Definition blockdiag (E : 'M[C]_n) : Prop := forall k l, (k %/ p != l %/ p)%N -> E k l = 0.
Lemma bc_blockdiag (B : 'M[C]_n) : is_block_circulant p q B -> blockdiag (Ffftb *m B *m adj Ffftb).
Proof.
move=> HB k l h.
apply: (shift_diag nextb_inj Ffftb_nextb); [by move=> j; apply: (good_normX Hq)| |exact: neq_div].
move=> a b; apply: HB; rewrite ?nextb_mod // !nextb_div.
by rewrite modnDml modnDmr -addnA (addnC 1%N).
Qed.
Lemma blockdiag_bc (E : 'M[C]_n) : blockdiag E -> is_block_circulant p q (adj Ffftb *m E *m Ffftb).
Proof.
move=> HE a b a' b' E1 E2 E3; rewrite mxE [RHS]mxE; apply: eq_bigr=> l _.
rewrite mxE [X in _ = X * _]mxE !mulr_suml; apply: eq_bigr=> k _.
have [kl|/HE ->] := eqVneq (k %/ p)%N (l %/ p)%N; last by rewrite !mulr0 !mul0r.
rewrite !adjE !FfftbE -E1 -E2 !rmorphM /= ![_ * E k l * _]mulrAC; congr (_ * _).
rewrite mulrACA [RHS]mulrACA; congr (_ * _).
case: ifP => _; last by rewrite rmorph0 !mul0r.
case: ifP => _; last by rewrite !mulr0.
apply: conj_swap; rewrite ?(good_normX Hq) // -!exprD; apply: (good_eq Hq).
by rewrite kl -!mulnDr -modnMmr -[in RHS]modnMmr; congr ((_ * _) %% _)%N; rewrite addnC -E3 addnC.
Qed.
Lemma tri_fwd (B : 'M[C]_n) : tridiagonal_blocks p B -> tridiagonal_blocks p (Ffftb *m B *m adj Ffftb).
Proof.
move=> HB k l h; rewrite mxE big1 // => b _; rewrite adjE.
have [El|ne] := eqVneq (l %% p)%N (b %% p)%N; last by rewrite Ffftb_mod // rmorph0 mulr0.
rewrite mxE big1 ?mul0r // => a _.
have [Ek|ne] := eqVneq (k %% p)%N (a %% p)%N; last by rewrite Ffftb_mod // mul0r.
by rewrite HB ?mulr0 // -Ek -El.
Qed.
Lemma tri_bwd (E : 'M[C]_n) : tridiagonal_blocks p E -> tridiagonal_blocks p (adj Ffftb *m E *m Ffftb).
Proof.
move=> HE a b h; rewrite mxE big1 // => l _.
have [El|ne] := eqVneq (l %% p)%N (b %% p)%N; last by rewrite (Ffftb_mod ne) mulr0.
rewrite mxE big1 ?mul0r // => k _; rewrite adjE.
have [Ek|ne] := eqVneq (k %% p)%N (a %% p)%N; last by rewrite (Ffftb_mod ne) rmorph0 mul0r.
by rewrite HE ?mulr0 // Ek El.
Qed.
End Two.
End Dft.
