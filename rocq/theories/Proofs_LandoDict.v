(** * LANDO: one step of dictionary learning *)
From mathcomp Require Import all_ssreflect all_algebra.
From Verif Require Import Py LinAlg Model_Operator Spec_Operator Model_Lando Spec_Lando Proofs_Lando.
Set Implicit Arguments. Unset Strict Implicit. Unset Printing Implicit Defensive.
Import Order.TTheory GRing.Theory Num.Theory.
Local Open Scope ring_scope.

Section Kern.
Variables (C : numClosedFieldType) (n : nat) (k : 'cV[C]_n -> 'cV[C]_n -> C).
Hypothesis PK : pos_kernel k.

Lemma kernels_row a b c (A : 'M[C]_(n, a)) (B : 'M[C]_(n, b)) (E : 'M[C]_(n, c)) :
  kernels k (row_mx A B) E = col_mx (kernels k A E) (kernels k B E).
Proof.
apply/matrixP => i j; rewrite mxE; case: (split_ordP i) => i' ->; rewrite ?col_mxEu ?col_mxEd mxE.
  by rewrite colKl. by rewrite colKr.
Qed.
Lemma kernels_col a b c (A : 'M[C]_(n, a)) (B : 'M[C]_(n, b)) (E : 'M[C]_(n, c)) :
  kernels k E (row_mx A B) = row_mx (kernels k E A) (kernels k E B).
Proof.
apply/matrixP => i j; rewrite mxE; case: (split_ordP j) => j' ->; rewrite ?row_mxEl ?row_mxEr mxE.
  by rewrite colKl. by rewrite colKr.
Qed.
Lemma kernels_real a b (A : 'M[C]_(n, a)) (B : 'M[C]_(n, b)) : realm A -> realm B -> realm (kernels k A B).
Proof. by move=> HA HB i j; rewrite mxE; apply: (pk_real PK); apply: realm_col. Qed.
Lemma kernels_adj a b (A : 'M[C]_(n, a)) (B : 'M[C]_(n, b)) : realm A -> realm B ->
  adj (kernels k A B) = kernels k B A.
Proof.
move=> HA HB; rewrite realm_adj; last exact: kernels_real.
by apply/matrixP => i j; rewrite !mxE; apply: (pk_sym PK); apply: realm_col.
Qed.
Lemma kernels11 x : kernels k x x = (k x x)%:M.
Proof. by rewrite [LHS]mx11_scalar mxE !col_id. Qed.

Lemma kernels_null m p (D : 'M[C]_(n, m)) c (Z : 'M[C]_(n, p)) : realm D -> realm Z -> knorm2 k D c = 0 ->
  kernels k Z D *m c = 0.
Proof.
move=> HD HZ H0; pose E := row_mx D Z; have HE : realm E by apply: realm_row.
have := @psd_null C _ (kernels k E E) (col_mx c 0) (kernels_adj HE HE) (fun z => pk_pos PK z HE).
have -> : kernels k E E *m col_mx c 0 = col_mx (kernels k D D *m c) (kernels k Z D *m c).
  by rewrite /E kernels_row !kernels_col mul_col_mx !mul_row_col !mulmx0 !addr0.
rewrite -mulmxA {1}/E kernels_row !kernels_col mul_col_mx !mul_row_col !mulmx0 !addr0.
rewrite adj_colm adj0 mul_row_col mul0mx addr0 mulmxA => /(_ H0) /eqP.
by rewrite -[X in _ == X]col_mx0 => /eqP /eq_col_mx [].
Qed.

(** the distance from a combination *)
Lemma apartE m (D : 'M[C]_(n, m)) x c : realm D -> realm x ->
  apart k D x c = k x x - (adj c *m kernels k D x) 0 0 - (adj (kernels k D x) *m c) 0 0 + (adj c *m kernels k D D *m c) 0 0.
Proof.
move=> HD Hx; rewrite /apart /knorm2 kernels_row !kernels_col adj_colm adjN -mulmxA mul_col_mx !mul_row_col.
rewrite adj1 mul1mx !mulmx1 mulNmx !mulmxN mulmxDr mulmxN kernels11 -(kernels_adj HD Hx).
rewrite !mulmxA; move: (adj c *m kernels k D D *m c) (adj c *m kernels k D x) (adj (kernels k D x) *m c) => p q r.
rewrite !mxE mulr1n opprD opprK [LHS]addrC -!addrA; rewrite [LHS]addrCA; congr (_ + _).
by rewrite addrA addrC.
Qed.
Lemma completeE m (D : 'M[C]_(n, m)) x pi c : realm D -> realm x -> kernels k D D *m pi = kernels k D x ->
  apart k D x c = k x x - (adj (kernels k D x) *m pi) 0 0 + (adj (c - pi) *m kernels k D D *m (c - pi)) 0 0.
Proof.
move=> HD Hx E; rewrite apartE //; set kt := kernels k D x in E *; set M := kernels k D D in E *.
have HM : adj M = M by apply: kernels_adj.
have E' : adj pi *m M = adj kt by rewrite -E adjM HM.
have -> : adj (c - pi) *m M *m (c - pi) = adj c *m M *m c - adj c *m kt - (adj kt *m c - adj kt *m pi).
  by rewrite adjB !mulmxBl !mulmxBr E' -[adj c *m M *m pi]mulmxA E.
move: (adj c *m M *m c) (adj c *m kt) (adj kt *m c) (adj kt *m pi) => p q r s; rewrite !mxE.
rewrite -!addrA; congr (_ + _); rewrite [RHS]addrCA; rewrite !opprD !opprK !addrA.
by rewrite [RHS]addrC !addrA [s 0 0 + _]addrC addrK addrC addrA.
Qed.
Lemma dist2P m (D : 'M[C]_(n, m)) x pi delta : realm D -> realm x -> kernels k D D *m pi = kernels k D x ->
  delta = k x x - (adj (kernels k D x) *m pi) 0 0 ->
  [/\ is_dist2 k D x delta, 0 <= delta & apart k D x pi = delta].
Proof.
move=> HD Hx E Ed.
have H c : delta <= apart k D x c by rewrite (completeE c HD Hx E) -Ed ler_addl; apply: (pk_pos PK).
have E0 : apart k D x pi = delta by rewrite (completeE pi HD Hx E) -Ed subrr mulmx0 mxE addr0.
split=> //; first by split=> //; exists pi.
by rewrite -E0 /apart; apply: (pk_pos PK); apply: realm_row.
Qed.
Lemma dist2_unique m (D : 'M[C]_(n, m)) x d1 d2 : is_dist2 k D x d1 -> is_dist2 k D x d2 -> d1 = d2.
Proof. by case=> [[c1 <-] H1] [[c2 <-] H2]; apply/eqP; rewrite eq_le H1 H2. Qed.
End Kern.

Section Step.
Variables (C : numClosedFieldType) (np : numpy C) (n : nat) (ex : C -> C) (ks : kspec C n) (cplx : bool).
Local Notation k := (kernel ex ks).
Hypothesis PK : pos_kernel k.
Hypothesis LS : forall a b (A : 'M[C]_(a, b)) y, lstsq_ok np A y.

(** the dictionary is real, and the triangular factor is a regular Cholesky factor of its kernel matrix *)
Record chol_inv (o : lop C n) : Prop := CholInv {
  ci_D : realm (lo_D o); ci_C : realm (lo_C o); ci_unit : lo_C o \in unitmx;
  ci_chol : lo_C o *m adj (lo_C o) = kernels k (lo_D o) (lo_D o) }.

Lemma adj_unit m (A : 'M[C]_m) : A \in unitmx -> adj A \in unitmx.
Proof. by move=> U; rewrite /adj unitmx_tr map_unitmx. Qed.

Record step_facts (o : lop C n) (x : 'cV[C]_n) (kt s pi : 'cV[C]_(lo_m o)) (kxx delta : C) : Prop := StepFacts {
  sf_kt : kt = kernels k (lo_D o) x; sf_kxx : kxx = k x x;
  sf_s : lo_C o *m s = kt; sf_pi : adj (lo_C o) *m pi = s; sf_K : kernels k (lo_D o) (lo_D o) *m pi = kt;
  sf_rs : realm s; sf_rpi : realm pi; sf_delta : delta = kxx - (adj kt *m pi) 0 0; sf_sum : delta = kxx - \sum_i s i 0 ^+ 2;
  sf_dist : is_dist2 k (lo_D o) x delta; sf_ge0 : 0 <= delta; sf_apart : apart k (lo_D o) x pi = delta }.

Lemma stepP o x kt s pi kxx delta : chol_inv o -> realm x -> cholesky_step np ex ks o x = (kt, s, pi, kxx, delta) ->
  step_facts x kt s pi kxx delta.
Proof.
case=> HD HC U E Hx [Ekt Es Epi Exx Ed].
have Es' : lo_C o *m s = kt by rewrite -Es; apply: (lstsq_unit U); rewrite -Ekt; apply: LS.
have Epi' : adj (lo_C o) *m pi = s by rewrite -Epi; apply: (lstsq_unit (adj_unit U)); rewrite Es; apply: LS.
have EK : kernels k (lo_D o) (lo_D o) *m pi = kt by rewrite -E -mulmxA Epi'.
have Rkt : realm kt by rewrite -Ekt; apply: kernels_real.
have Rs : realm s by rewrite -[s](mulKmx U) Es'; apply: realm_mul => //; apply: realm_inv.
have Rpi : realm pi.
  rewrite -[pi](mulKmx (adj_unit U)) Epi'; apply: realm_mul => //; apply: realm_inv; rewrite realm_adj //; exact: realm_tr.
have Ed' : delta = kxx - (adj kt *m pi) 0 0 by rewrite -Ed Epi Exx Ekt.
have [Ds D0 Da] := dist2P PK HD Hx (etrans EK (esym Ekt)) (etrans Ed' (congr2 (fun a b => a - (adj b *m pi) 0 0) (esym Exx) (esym Ekt))).
split=> //; rewrite Ed'; congr (_ - _); rewrite -Es' adjM -mulmxA Epi' realm_adj // mxE; apply: eq_bigr => i _.
by rewrite mxE expr2.
Qed.

Lemma corner_ge0 (z : C) : 0 <= z -> corner cplx z = sqrtC z.
Proof. by move=> z0; rewrite /corner le_gtF // andbF ger0_norm. Qed.

Lemma grow_inv o x kt s pi kxx delta P W : chol_inv o -> realm x -> step_facts x kt s pi kxx delta -> 0 < delta ->
  chol_inv (LOp (row_mx (lo_D o) x) (update_cholesky cplx (lo_C o) s kxx) P W).
Proof.
case=> HD HC U E Hx F D0; have cz : corner cplx (kxx - \sum_i s i 0 ^+ 2) = sqrtC delta.
  by rewrite -(sf_sum F) corner_ge0 // (sf_ge0 F).
have Rd : sqrtC delta \is Num.real by apply: ger0_real; rewrite sqrtC_ge0 (sf_ge0 F).
split=> /=.
- exact: realm_row.
- rewrite /update_cholesky cz; apply: realm_block => //; [exact: realm_0 | | exact: realm_scalar].
  rewrite realm_adj; [exact: realm_tr (sf_rs F) | exact: (sf_rs F)].
- rewrite /update_cholesky cz unitmxE det_lblock unitrM -unitmxE U det_scalar1 unitfE sqrtC_eq0 gt_eqF //.
- rewrite /update_cholesky cz adj_block adj0 adjK adj_scalar (conj_Creal Rd) mulmx_block !mulmx0 !mul0mx !addr0 E (sf_s F).
  rewrite kernels_row !kernels_col /block_mx; congr (col_mx (row_mx _ _) (row_mx _ _)).
  + exact: sf_kt F.
  + by rewrite -adjM (sf_s F) (sf_kt F) kernels_adj.
  rewrite kernels11 -scalar_mxM -expr2 sqrtCK (sf_sum F) -(sf_kxx F).
  rewrite [adj s *m s]mx11_scalar -raddfD /=; congr (_%:M); rewrite realm_adj; last exact: sf_rs F.
  by rewrite mxE addrC; rewrite (eq_bigr (fun i => s^T 0 i * s i 0)) ?subrK // => i _; rewrite mxE expr2.
Qed.

(** one snapshot *)
Lemma absorbP online tol o x y : chol_inv o -> realm x -> 0 <= tol ->
  exists delta, [/\ is_dist2 k (lo_D o) x delta, chol_inv (absorb np ex ks cplx online tol o (x, y)) &
    existT (fun m => 'M[C]_(n, m)) _ (lo_D (absorb np ex ks cplx online tol o (x, y))) =
    if tol < delta then existT _ _ (row_mx (lo_D o) x) else existT _ _ (lo_D o)].
Proof.
move=> I Hx t0; rewrite /absorb [(x, y).1]/= [(x, y).2]/=.
case E: (cholesky_step _ _ _ _ _) => [[[[kt s] pi] kxx] delta]; have F := stepP I Hx E.
rewrite (ger0_norm (sf_ge0 F)); exists delta; case L: (tol < delta).
  split=> //; first exact: sf_dist F; apply: (grow_inv _ _ I Hx F); exact: le_lt_trans L.
by case: online; split=> //; try exact: (sf_dist F); case: I.
Qed.

Lemma beginP online x y : realm x -> k x x != 0 -> chol_inv (begin_with ex ks online (x, y)).
Proof.
move=> Hx N; have K0 : 0 <= k x x.
  by have := pk_pos PK 1%:M Hx; rewrite /knorm2 adj1 mul1mx mulmx1 mxE !col_id.
have Rc : sqrtC (k x x) \is Num.real by apply: ger0_real; rewrite sqrtC_ge0.
split=> //=; first exact: realm_scalar.
  by rewrite unitmxE det_scalar1 unitfE sqrtC_eq0.
by rewrite adj_scalar (conj_Creal Rc) -scalar_mxM -expr2 sqrtCK kernels11.
Qed.
End Step.
