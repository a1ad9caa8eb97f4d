(** * Lemmas for C33: Toeplitz, Hankel and symmetric tridiagonal manifolds *)
From mathcomp Require Import all_ssreflect all_algebra.
From Verif Require Import Py LinAlg Model_Operator Spec_Operator Model_PiDMD Spec_PiDMD Proofs_PiAlg Proofs_PiDMD Proofs_PiDft Proofs_PiCirc.
Set Implicit Arguments. Unset Strict Implicit. Unset Printing Implicit Defensive.
Import Order.TTheory GRing.Theory Num.Theory.
Local Open Scope ring_scope.

Section Toep.
Variables (C : numClosedFieldType) (np : numpy C) (pn : pi_numpy C).

Lemma tr_adj a b (A B : 'M[C]_(a, b)) : \tr (adj A *m B) = \sum_t \sum_i (A i t)^* * B i t.
Proof. by apply: eq_bigr=> t _; rewrite mxE; apply: eq_bigr=> i _; rewrite adjE. Qed.
Lemma sum_drop N (f : 'I_N -> C) : (forall l : 'I_N, (N.-1 <= l)%N -> f l = 0) ->
  \sum_l f l = \sum_i f (widen_ord (leq_pred N) i).
Proof.
case: N f => [|N] f H; first by rewrite !big_ord0.
rewrite big_ord_recr /= H // addr0; apply: eq_bigr=> i _; congr f; exact: val_inj.
Qed.
Lemma append0_in N (d : 'cV[C]_(N.-1)) (i : 'I_(N.-1)) : append0 d 0 (widen_ord (leq_pred N) i) = d i 0.
Proof. by rewrite mxE /= valK. Qed.
Lemma append0_out N (d : 'cV[C]_(N.-1)) (l : 'I_N) : (N.-1 <= l)%N -> append0 d 0 l = 0.
Proof. by move=> h; rewrite mxE insubF // ltnNge h. Qed.

Lemma sub_mod (N j k j' k' : nat) : (k <= N)%N -> (k' <= N)%N -> (j + k' = j' + k %[mod N])%N ->
  ((j + N - k) %% N = (j' + N - k') %% N)%N.
Proof.
move=> hk hk' E; apply/eqP; rewrite -(eqn_modDr (k + k')) -!addnBA //.
have -> : (j + (N - k) + (k + k') = j + k' + N)%N by rewrite [(k + k')%N]addnC addnACA subnK.
have -> : (j' + (N - k') + (k + k') = j' + k + N)%N by rewrite addnACA subnK.
by rewrite !modnDr E.
Qed.

Section Facts.
Variables (n m : nat) (JX Y : 'M[C]_(n, m)).
Hypothesis HR : root_ok pn (n + n).
Let T := TF pn (n + n).
Let Am := toep_Am pn n.
Let B := toep_B pn JX.
Definition Rmx : 'M[C]_(n, n + n) := row_mx 1%:M 0.
Lemma conj_R : conj_mx Rmx = Rmx.
Proof. by rewrite /conj_mx /Rmx map_row_mx map_mx1 map_mx0. Qed.
Lemma adj_trR : adj Rmx^T = Rmx.
Proof. by rewrite /adj map_trmx trmxK; exact: conj_R. Qed.
Lemma s_inv_conj : (sqrtC (n + n)%:R)^-1 * (sqrtC (n + n)%:R)^* = 1 :> C.
Proof. by rewrite geC0_conj ?sqrtC_ge0 ?ler0n // mulVf // (s_neq0 HR). Qed.
Lemma AmE : Am = Rmx *m T.
Proof. by rewrite /Am /toep_Am (dftE HR) adjM adjZ adjK adj_trR -scalemxAr scalerA s_inv_conj scale1r. Qed.
Lemma BE : B = JX^T *m Am.
Proof.
rewrite AmE /B /toep_B (dftE HR) adjM adjZ adjK -scalemxAr scalerA s_inv_conj scale1r mulmxA; congr (_ *m _).
by rewrite /Rmx mul_mx_row mulmx1 mulmx0 /adj map_trmx trmxK map_row_mx map_mx0; congr row_mx; apply/matrixP=> i j; rewrite !mxE conjCK.
Qed.
Lemma EE : block_mx 1%:M 0 0 0 = Rmx^T *m Rmx :> 'M[C]_(n + n).
Proof. by rewrite /Rmx tr_row_mx trmx1 trmx0 mul_col_row !mulmx1 mulmx0 !mul0mx. Qed.
Lemma AAtE : toep_AAt pn n = adj Am *m Am.
Proof.
rewrite /toep_AAt trmx_mul trmxK idft_sym // dft_idft // EE AmE adjM.
have -> : adj Rmx = Rmx^T by rewrite -{1}adj_trR adjK.
by rewrite !mulmxA.
Qed.
Lemma ulE (M : 'M[C]_(n + n)) : ulsubmx M = Rmx *m M *m Rmx^T.
Proof.
rewrite /Rmx tr_row_mx trmx1 trmx0 -[in RHS](submxK M) mul_row_block !mul1mx !mul0mx !addr0.
by rewrite mul_row_col mulmx1 mulmx0 addr0.
Qed.
Definition toep_of (e : 'rV[C]_(n + n)) : 'M[C]_n := ulsubmx (adj T *m diag_mx e *m T).
Lemma new_AE e : (idft pn (n + n) *m (dft pn (n + n) *m diag_mx e)^T)^T = adj T *m diag_mx e *m T.
Proof. by rewrite trmx_mul trmxK idft_sym // dft_idft. Qed.
Lemma toep_ofE e : toep_of e = conj_mx Am *m diag_mx e *m Am^T.
Proof.
rewrite /toep_of ulE AmE conj_mxM conj_R trmx_mul TF_sym.
by rewrite (adj_sym (TF_sym _ _)) !mulmxA.
Qed.
Lemma toep_of_toep e : is_toeplitz (toep_of e).
Proof.
move=> i j i' j' E; rewrite /toep_of !mxE.
have := @circ_is_circ C pn (n + n) HR e (lshift n i) (lshift n j) (lshift n i') (lshift n j').
rewrite ![(adj _ *m _ *m _) _ _]mxE; apply.
by rewrite /= E.
Qed.
Definition Gl (l : 'I_(n + n)) : 'M[C]_(n, m) := \matrix_(a, t) ((Am a l)^* * B t l).
Lemma toep_mul e : toep_of e *m JX = \sum_l e 0 l *: Gl l.
Proof.
rewrite toep_ofE -mulmxA (_ : Am^T *m JX = B^T); last by rewrite BE trmx_mul trmxK.
apply/matrixP=> a t; rewrite summxE mxE; apply: eq_bigr=> l _.
rewrite mul_mx_diag !mxE; by rewrite mulrAC mulrC mulrA.
Qed.
Lemma toep_gram l k : \tr (adj (Gl l) *m Gl k) = (toep_L pn JX)^T l k.
Proof.
rewrite [RHS]mxE /toep_L adjE [X in _ = X^*]mxE AAtE rmorphM /=.
rewrite [((adj Am *m Am) l k)]mxE [_^T l k]mxE [(_ *m _) k l]mxE !rmorph_sum /= tr_adj mulr_sumr.
apply: eq_bigr=> t _; rewrite mulr_suml; apply: eq_bigr=> a _.
by rewrite ![Gl _ _ _]mxE !rmorphM /= !adjE !conjCK mulrACA [X in _ * X]mulrC.
Qed.
Lemma toep_rhs l : \tr (adj (Gl l) *m Y) = toep_y pn JX Y l 0.
Proof.
rewrite [RHS]mxE [X in _ = X^*]mxE rmorph_sum tr_adj; apply: eq_bigr=> t _.
rewrite [X in _ = (X * _)^*]mxE rmorphM rmorph_sum /= mulr_suml; apply: eq_bigr=> a _.
by rewrite [Gl _ _ _]mxE ![conj_mx _ _ _]mxE !rmorphM /= adjE !conjCK mulrAC.
Qed.
Let G' (i : 'I_((n + n).-1)) := Gl (widen_ord (leq_pred _) i).
Lemma combine_toep (e : 'rV[C]_(n + n)) : (forall l : 'I_(n + n), ((n + n).-1 <= l)%N -> e 0 l = 0) ->
  combine G' (\col_i e 0 (widen_ord (leq_pred _) i)) = toep_of e *m JX.
Proof.
move=> H; rewrite toep_mul; apply/matrixP=> a t; rewrite !summxE (@sum_drop _ (fun l => (e 0 l *: Gl l) a t)).
  by apply: eq_bigr=> i _; rewrite !mxE.
by move=> l h; rewrite H // scale0r mxE.
Qed.
Lemma toep_fit : lstsq_ok np (drop_last (toep_L pn JX))^T (drop_last_v (toep_y pn JX Y)) ->
  forall e : 'rV[C]_(n + n), (forall l : 'I_(n + n), ((n + n).-1 <= l)%N -> e 0 l = 0) ->
  frob2 (Y - toep_of (toep_eigs np pn JX Y) *m JX) <= frob2 (Y - toep_of e *m JX).
Proof.
rewrite /lstsq_ok /toep_eigs; set d := np_lstsq _ _ _ => H e He.
have gE : (drop_last (toep_L pn JX))^T = gram G'.
  by apply/matrixP=> l k; rewrite [RHS]mxE toep_gram !mxE.
have yE : drop_last_v (toep_y pn JX Y) = gram_rhs G' Y.
  by apply/colP=> l; rewrite [RHS]mxE toep_rhs mxE.
rewrite gE yE in H; have := normal_best H (\col_i e 0 (widen_ord (leq_pred _) i)).
rewrite combine_toep //.
have -> : combine G' d = toep_of (append0 d) *m JX; last by [].
rewrite -combine_toep; last by move=> l h; rewrite append0_out.
by congr combine; apply/colP=> i; rewrite mxE append0_in.
Qed.
End Facts.

(** every Toeplitz matrix is a corner of a circulant one with last eigenvalue 0 *)
Section Embed.
Variables (n : nat) (A : 'M[C]_n).
Hypothesis HR : root_ok pn (n + n).
Hypothesis HA : is_toeplitz A.
Let N := (n + n)%N.
Let T := TF pn N.
Let w := (pi_root pn N)^-1.
Lemma n_pos : (0 < n)%N.
Proof. by have := N_pos HR; rewrite addnn double_gt0. Qed.
Definition c0 (d : nat) : C :=
  if (d < n)%N then mx_at A d 0 else if (d == n)%N then 0 else mx_at A 0 (N - d).
Definition S0 : C := \sum_(a < N) w ^+ (N.-1 * a) * c0 a.
Definition cx (d : nat) : C := c0 d + (if (d == n)%N then - S0 / w ^+ (N.-1 * n) else 0).
Definition Ct : 'M[C]_N := \matrix_(j, k) cx ((j + N - k) %% N).
Lemma Ct_circ : is_circulant Ct.
Proof.
by move=> j k j' k' E; rewrite !mxE; congr cx; apply: sub_mod E; apply: ltnW.
Qed.
Lemma mx_at_lt (i j : nat) (hi : (i < n)%N) (hj : (j < n)%N) : mx_at A i j = A (Ordinal hi) (Ordinal hj).
Proof. exact: (mx_atE A (Ordinal hi) (Ordinal hj)). Qed.
Lemma Ct_ul : ulsubmx Ct = A.
Proof.
apply/matrixP=> i j; rewrite !mxE /=.
have NN : (n <= N)%N by rewrite leq_addr.
have [ji|ij] := leqP j i.
  have E : ((i + N - j) %% N = i - j)%N.
    rewrite -addnBAC // modnDr modn_small //; apply: leq_ltn_trans (leq_subr _ _) _; exact: leq_trans (ltn_ord i) NN.
  have lt : (i - j < n)%N by apply: leq_ltn_trans (leq_subr _ _) _.
  rewrite E /cx /c0 lt ltn_eqF // addr0 (mx_at_lt lt n_pos); apply: HA => /=.
  by rewrite subnK // addn0.
have iN : (i + N - j < N)%N by rewrite ltn_subLR ?ltn_add2r // (leq_trans (ltnW (ltn_ord j))) // (leq_trans NN) // leq_addl.
have E : ((i + N - j) %% N = i + N - j)%N by rewrite modn_small.
have gt : (n < i + N - j)%N.
  by rewrite ltn_subRL /N addnA ltn_add2r; apply: leq_trans (ltn_ord j) _; rewrite leq_addl.
rewrite E /cx /c0 [(_ < n)%N]ltnNge (ltnW gt) /= gtn_eqF // addr0.
have NE : (N - (i + N - j) = j - i)%N.
  by rewrite subnBA ?(leq_trans (ltnW (ltn_ord j))) ?(leq_trans NN) ?leq_addl // [(i + N)%N]addnC subnDl.
have lt : (j - i < n)%N by apply: leq_ltn_trans (leq_subr _ _) _.
by rewrite NE (mx_at_lt n_pos lt); apply: HA => /=; rewrite add0n addnC subnK // ltnW.
Qed.
Lemma T_entry l a : T l a = (sqrtC N%:R)^-1 * w ^+ (l * a).
Proof. by rewrite !mxE. Qed.
Lemma toep_embed : exists2 e : 'rV[C]_N, (forall l : 'I_N, (N.-1 <= l)%N -> e 0 l = 0) & toep_of e = A.
Proof.
have GR := good_inv (prim_good HR).
have TT := TF_unitary HR.
have off := circ_diag GR Ct_circ.
pose e : 'rV[C]_N := \row_l (T *m Ct *m adj T) l l.
have De : T *m Ct *m adj T = diag_mx e.
  by apply/matrixP=> k l; rewrite [RHS]mxE; case: (eqVneq k l) => [->|ne]; [rewrite mulr1n [e 0 l]mxE|rewrite mulr0n; exact: off].
have CE : Ct = adj T *m diag_mx e *m T by rewrite -De -!mulmxA (mulmx1C TT) mulmx1 mulmxA (mulmx1C TT) mul1mx.
exists e; last by rewrite /toep_of -CE Ct_ul.
move=> l h.
have lE : (l : nat) = N.-1.
  by apply/eqP; rewrite eqn_leq h andbT -ltnS prednK // (N_pos HR).
pose z := Ordinal (N_pos HR).
have M : T *m Ct = diag_mx e *m T by rewrite -De -!mulmxA (mulmx1C TT) mulmx1.
have := congr1 (fun M : 'M_N => M l z) M; rewrite mul_diag_mx [RHS]mxE.
have -> : (T *m Ct) l z = 0.
  rewrite mxE (eq_bigr (fun a : 'I_N => (sqrtC N%:R)^-1 * (w ^+ (N.-1 * a) * cx a))); last first.
    by move=> a _; rewrite T_entry mxE /= subn0 modnDr modn_small // lE mulrA.
  rewrite -mulr_sumr; apply/eqP; rewrite mulf_eq0; apply/orP; right.
  rewrite (eq_bigr (fun a : 'I_N => w ^+ (N.-1 * a) * c0 a +
      (if (a == n :> nat) then w ^+ (N.-1 * a) * (- S0 / w ^+ (N.-1 * n)) else 0))); last first.
    by move=> a _; rewrite /cx mulrDr; case: eqP => _; rewrite ?mulr0.
  rewrite big_split /= -/S0.
  have nN : (n < N)%N by rewrite /N -[X in (X < _)%N]addn0 ltn_add2l n_pos.
  rewrite (bigD1 (Ordinal nN)) //= eqxx [X in _ + (_ + X)]big1 => [|a ne]; last first.
    by case: eqP => // E; case/eqP: ne; apply: val_inj.
  by rewrite addr0 mulrCA mulfV ?mulr1 ?subrr // expf_neq0 // invr_eq0 -normr_eq0 (good_norm (prim_good HR)) oner_eq0.
move/esym/eqP; rewrite mulf_eq0 => /orP[/eqP //|].
by rewrite T_entry mulf_eq0 invr_eq0 (negbTE (s_neq0 HR)) /= muln0 expr0 oner_eq0.
Qed.
End Embed.

Lemma toeplitz_best n m (X Y : 'M[C]_(n, m)) : root_ok pn (n + n) ->
  lstsq_ok np (drop_last (toep_L pn X))^T (drop_last_v (toep_y pn X Y)) ->
  best (@is_toeplitz C n) X Y (toep_of (toep_eigs np pn X Y)).
Proof.
move=> HR H; split; first exact: toep_of_toep.
by move=> B /(toep_embed HR)[e He <-]; apply: toep_fit.
Qed.
Lemma toeplitzE n m (X Y : 'M[C]_(n, m)) fl : root_ok pn (n + n) ->
  toeplitz np pn X Y fl = toep_of (toep_eigs np pn (flip_eye C n fl *m X) Y) *m flip_eye C n fl.
Proof. by move=> HR; rewrite /toeplitz new_AE. Qed.
Lemma flipK n fl : flip_eye C n fl *m flip_eye C n fl = 1%:M.
Proof.
case: fl; last by rewrite mulmx1.
apply/matrixP=> i j; rewrite !mxE (bigD1 (rev_ord i)) //= !mxE rev_ordK eqxx mul1r big1 ?addr0.
  by rewrite (inj_eq rev_ord_inj).
by move=> k ne; rewrite !mxE -(inj_eq rev_ord_inj) rev_ordK eq_sym (negbTE ne) mul0r.
Qed.
Lemma mul_flip n (A : 'M[C]_n) i j : (A *m flip_eye C n true) i j = A i (rev_ord j).
Proof.
rewrite mxE (bigD1 (rev_ord j)) //= mxE eqxx mulr1 big1 ?addr0 // => k ne.
by rewrite mxE (negbTE ne) mulr0.
Qed.
Lemma hankel_toeplitz n (A : 'M[C]_n) : is_hankel A -> is_toeplitz (A *m flip_eye C n true).
Proof.
move=> H i j i' j' E; rewrite !mul_flip; apply: H => /=.
apply/eqP; rewrite -(eqn_add2r (j.+1 + j'.+1)).
have -> : (i + (n - j.+1) + (j.+1 + j'.+1) = i + j'.+1 + n)%N by rewrite [(j.+1 + _)%N]addnC addnACA subnK.
have -> : (i' + (n - j'.+1) + (j.+1 + j'.+1) = i' + j.+1 + n)%N by rewrite addnACA subnK.
by rewrite !addnS E.
Qed.
Lemma toeplitz_hankel n (A : 'M[C]_n) : is_toeplitz A -> is_hankel (A *m flip_eye C n true).
Proof.
move=> H i j i' j' E; rewrite !mul_flip; apply: H => /=.
apply/eqP; rewrite -(eqn_add2r (j.+1 + j'.+1)).
have -> : (i' + (n - j.+1) + (j.+1 + j'.+1) = i' + j'.+1 + n)%N by rewrite [(j.+1 + _)%N]addnC addnACA subnK.
have -> : (i + (n - j'.+1) + (j.+1 + j'.+1) = i + j.+1 + n)%N by rewrite addnACA subnK.
by rewrite !addnS E.
Qed.
Lemma hankel_best n m (X Y : 'M[C]_(n, m)) : root_ok pn (n + n) ->
  let JX := flip_eye C n true *m X in
  lstsq_ok np (drop_last (toep_L pn JX))^T (drop_last_v (toep_y pn JX Y)) ->
  best (@is_hankel C n) X Y (toeplitz np pn X Y true).
Proof.
move=> HR JX H; rewrite toeplitzE // -/JX; have [tA opt] := toeplitz_best HR H.
split; first exact: toeplitz_hankel.
move=> B /hankel_toeplitz tB; have := opt _ tB.
by rewrite /JX -!mulmxA (mulmxA (flip_eye C n true) _ X) flipK mul1mx.
Qed.

(** ** symmetric tridiagonal *)
Lemma sum_at N (b : nat) (v : C) (f : 'I_N -> C) : \sum_(k < N) (if (k == b :> nat) then v else 0) * f k = v * fun_at f b.
Proof.
rewrite /fun_at; case: insubP => [i _ E|nb].
  rewrite (bigD1 i) //= E eqxx big1 ?addr0 // => k ne; case: eqP => [kb|_]; last by rewrite mul0r.
  by case/eqP: ne; apply: val_inj; rewrite /= E.
rewrite mulr0 big1 // => k _; case: eqP => [kb|_]; last by rewrite mul0r.
by case/negP: nb; rewrite -kb.
Qed.
Lemma sum_pair N (p q : nat) (u v : C) :
  \sum_(a < N) (if (a == p :> nat) then u else 0) * (if (a == q :> nat) then v else 0) =
  if (p == q) && (p < N)%N then u * v else 0.
Proof.
rewrite sum_at /fun_at; case: insubP => [i pN E|nb]; first by rewrite E pN andbT; case: eqP; rewrite ?mulr0.
by rewrite (negbTE nb) andbF mulr0.
Qed.
Lemma real_row_at n m (X : 'M[C]_(n, m)) a t : real_mx X -> row_at X a t \is Num.real.
Proof. by move=> rX; rewrite /row_at; case: insub => [i|]; rewrite ?real0 ?rX. Qed.
Lemma norm_real (x : C) : x \is Num.real -> `|x| ^+ 2 = x * x.
Proof. by move=> h; rewrite normCK conj_Creal. Qed.

Section Tri.
Variables (n m : nat) (X Y : 'M[C]_(n, m)).
Hypotheses (rX : real_mx X) (rY : real_mx Y).
Definition tg (l : 'I_n + 'I_n.-1) (a : 'I_n) (t : 'I_m) : C :=
  match l with
  | inl i => if (a == i :> nat) then row_at X i t else 0
  | inr j => (if (a == j :> nat) then row_at X j.+1 t else 0) + (if (a == j.+1 :> nat) then row_at X j t else 0)
  end.
Definition TG (l : 'I_(n + n.-1)) : 'M[C]_(n, m) := \matrix_(a, t) tg (split l) a t.
Lemma TG_l i a t : TG (lshift _ i) a t = if (a == i :> nat) then row_at X i t else 0.
Proof. by rewrite mxE (unsplitK (inl i)). Qed.
Lemma TG_r j a t : TG (rshift n j) a t =
  (if (a == j :> nat) then row_at X j.+1 t else 0) + (if (a == j.+1 :> nat) then row_at X j t else 0).
Proof. by rewrite mxE (unsplitK (inr j)). Qed.
Lemma vec_atE N (c : 'cV[C]_N) b : vec_at c b = fun_at (fun i => c i 0) b.
Proof. by []. Qed.
Lemma row_at_fun b t : row_at X b t = fun_at (fun i => X i t) b.
Proof. by []. Qed.
Lemma fun_atM N (f g : 'I_N -> C) b : fun_at f b * fun_at g b = fun_at (fun i => f i * g i) b.
Proof. by rewrite /fun_at; case: insub => // ; rewrite mul0r. Qed.
Lemma tri_combine c : combine TG c = tri_matrix c *m X.
Proof.
apply/matrixP=> a t; rewrite summxE big_split_ord /= [RHS]mxE.
under [RHS]eq_bigr => k _ do rewrite [tri_matrix _ _ _]mxE !mulrDl.
rewrite !big_split /= -addrA; congr (_ + _).
  apply: eq_bigr=> i _; rewrite mxE TG_l -val_eqE /= [usubmx _ _ _]mxE.
  by case: eqP => [E|_]; rewrite ?mulr0 ?mul0r // row_atE; congr (c (lshift _ _) 0 * _); apply: val_inj.
under eq_bigr => j _ do rewrite mxE TG_r mulrDr.
rewrite big_split /=; congr (_ + _).
- rewrite sum_at -row_at_fun.
  rewrite (eq_bigr (fun j : 'I_n.-1 => (if (j == a :> nat) then row_at X a.+1 t else 0) * c (rshift n j) 0)).
    by rewrite sum_at mulrC /vec_at; congr (_ * _); rewrite /fun_at; case: insub => // j; rewrite mxE.
  by move=> j _; rewrite eq_sym mulrC; case: eqP => [->|].
- case: a => [[|b] hb] /=.
    by rewrite !big1 // => [k _|k _]; rewrite ?mulr0 ?mul0r.
  rewrite [RHS](eq_bigr (fun k : 'I_n => (if (k == b :> nat) then vec_at (dsubmx c) b else 0) * X k t)); last first.
    by move=> k _; rewrite eqSS eq_sym; case: eqP => [->|].
  rewrite sum_at -row_at_fun.
  rewrite (eq_bigr (fun j : 'I_n.-1 => (if (j == b :> nat) then row_at X b t else 0) * c (rshift n j) 0)).
    by rewrite sum_at mulrC /vec_at; congr (_ * _); rewrite /fun_at; case: insub => // j; rewrite mxE.
  by move=> j _; rewrite eqSS eq_sym mulrC; case: eqP => [->|].
Qed.
Lemma r_real b t : row_at X b t \is Num.real. Proof. exact: real_row_at. Qed.
Lemma TG_real l a t : (TG l a t)^* = TG l a t.
Proof.
apply: conj_Creal; rewrite mxE /tg; case: split => i; last rewrite rpredD //.
- by case: ifP; rewrite ?real0 ?r_real.
- by case: ifP; rewrite ?real0 ?r_real.
- by case: ifP; rewrite ?real0 ?r_real.
Qed.
Lemma succ_lt (j : 'I_n.-1) : (j.+1 < n)%N.
Proof. by case: (n) j => [[]|k] // j; rewrite ltnS. Qed.
Lemma pred_lt (j : 'I_n.-1) : (j < n)%N.
Proof. exact: ltnW (succ_lt j). Qed.
Lemma tri_gram : gram TG = tri_T X.
Proof.
apply/matrixP=> l k; rewrite [LHS]mxE tr_adj.
under eq_bigr => t _ do under eq_bigr => a _ do rewrite TG_real.
case: (split_ordP l) => [i ->|j ->]; case: (split_ordP k) => [i' ->|j' ->].
- rewrite block_mxEul !mxE.
  under eq_bigr => t _ do (under eq_bigr => a _ do rewrite !TG_l; rewrite sum_pair ltn_ord andbT val_eqE).
  case: (eqVneq i i') => [->|ne]; last by rewrite big1 // mulr0n.
  by rewrite mulr1n; apply: eq_bigr=> t _; rewrite norm_real ?r_real.
- rewrite block_mxEur !mxE /dotT.
  under eq_bigr => t _ do (under eq_bigr => a _ do rewrite TG_l TG_r mulrDr; rewrite big_split /= !sum_pair ltn_ord !andbT).
  case: (eqVneq (i : nat) j') => [E|ne] /=.
    by apply: eq_bigr=> t _; rewrite E (ltn_eqF (ltnSn _)) addr0 mulrC.
  by case: eqP => [E|_]; [apply: eq_bigr=> t _; rewrite add0r E|rewrite big1 // => t _; rewrite addr0].
- rewrite block_mxEdl adjE !mxE /dotT.
  under eq_bigr => t _ do (under eq_bigr => a _ do rewrite TG_l TG_r mulrDl; rewrite big_split /= !sum_pair pred_lt succ_lt !andbT).
  case: (eqVneq (i' : nat) j) => [E|ne] /=.
    rewrite rmorph_sum; apply: eq_bigr=> t _; rewrite E (gtn_eqF (ltnSn _)) addr0 rmorphM /=.
    by rewrite !(conj_Creal (r_real _ _)).
  rewrite eq_sym; case: eqP => [->|ne'].
    rewrite rmorph_sum; apply: eq_bigr=> t _; rewrite add0r rmorphM /= !(conj_Creal (r_real _ _)).
    by rewrite mulrC.
  by rewrite rmorph0 big1 // => t _; rewrite addr0.
- rewrite block_mxEdr !mxE /dotT /norm2_at.
  under eq_bigr => t _ do (under eq_bigr => a _ do rewrite !TG_r mulrDl !mulrDr; rewrite !big_split /= !sum_pair pred_lt succ_lt !andbT).
  case: (eqVneq j j') => [<-|ne].
    rewrite mulr1n !(ltn_eqF (ltnSn _)) !(gtn_eqF (ltnSn _)) rmorph0 !addr0 -big_split /=.
    by apply: eq_bigr=> t _; rewrite eqxx !norm_real ?r_real // addr0 add0r addrC.
  have nv : (j == j' :> nat) = false by rewrite val_eqE (negbTE ne).
  rewrite mulr0n add0r nv.
  case: (eqVneq (j' : nat) j.+1) => [E|n1].
    have -> : (j == j'.+1 :> nat) = false by rewrite E; apply/negbTE; rewrite neq_ltn ltnW.
    rewrite conjC0 [RHS]addr0; apply: eq_bigr=> t _; by rewrite E !add0r addr0 mulrC.
  case: (eqVneq (j : nat) j'.+1) => [E|n2].
    rewrite [RHS]add0r rmorph_sum; apply: eq_bigr=> t _.
    by rewrite E rmorphM /= !(conj_Creal (r_real _ _)) add0r !addr0.
  by rewrite conjC0 [RHS]addr0 big1 // => t _; rewrite !addr0.
Qed.
Lemma tri_rhs : gram_rhs TG Y = tri_d X Y.
Proof.
apply/colP=> l; rewrite [LHS]mxE tr_adj.
under eq_bigr => t _ do under eq_bigr => a _ do rewrite TG_real.
have YE b t : \sum_(a < n) (if (a == b :> nat) then row_at X 0 t else 0) * Y a t = row_at X 0 t * row_at Y b t.
  by rewrite sum_at.
case: (split_ordP l) => [i ->|j ->].
- rewrite col_mxEu mxE /dotT; apply: eq_bigr=> t _.
  by under eq_bigr => a _ do rewrite TG_l; rewrite sum_at.
- rewrite col_mxEd mxE /dotT -big_split /=; apply: eq_bigr=> t _.
  under eq_bigr => a _ do rewrite TG_r mulrDl.
  by rewrite big_split /= !sum_at addrC.
Qed.
Lemma re_real p q (M : 'M[C]_(p, q)) : real_mx M -> re_mx M = M.
Proof. by move=> h; apply/matrixP=> i j; rewrite mxE (Creal_ReP _ (h i j)). Qed.
Lemma triT_real : real_mx (tri_T X).
Proof.
move=> l k; rewrite -tri_gram mxE tr_adj; apply: rpred_sum=> t _; apply: rpred_sum=> a _.
have R l' : TG l' a t \is Num.real by apply/CrealP; rewrite TG_real.
by rewrite TG_real rpredM.
Qed.
Lemma trid_real : real_mx (tri_d X Y).
Proof.
move=> l k; rewrite ord1 -tri_rhs mxE tr_adj; apply: rpred_sum=> t _; apply: rpred_sum=> a _.
have R l' : TG l' a t \is Num.real by apply/CrealP; rewrite TG_real.
by rewrite TG_real rpredM // rY.
Qed.
Lemma tri_matrix_ok (c : 'cV[C]_(n + n.-1)) : real_mx c -> sym_tridiagonal (tri_matrix c).
Proof.
move=> rc; split.
- have rv b : vec_at (dsubmx c) b \is Num.real by rewrite /vec_at; case: insub => [i|]; rewrite ?real0 // mxE.
  move=> i j; rewrite mxE !rpredD //; case: ifP; rewrite ?real0 // mxE //.
- apply/matrixP=> i j; rewrite mxE [LHS]mxE [RHS]mxE eq_sym -!addrA; congr (_ + _); last by rewrite addrC.
  by case: (eqVneq i j) => // ->.
- move=> i j; rewrite !addn1 => h; rewrite mxE.
  have n1 : i != j by apply/eqP=> E; move: h; rewrite E orbb ltnNge leqW.
  have n2 : (j == i.+1 :> nat) = false by apply/eqP=> E; move: h; rewrite E ltnn /= ltnNge ltnW.
  have n3 : (i == j.+1 :> nat) = false by apply/eqP=> E; move: h; rewrite E ltnn orbF ltnNge ltnW.
  by rewrite (negbTE n1) n2 n3 !addr0.
Qed.
Lemma tri_matrix_of (B : 'M[C]_n) : sym_tridiagonal B -> exists c, B = tri_matrix c.
Proof.
case=> rB sB tB; exists (col_mx (\col_i B i i) (\col_j mx_at B j j.+1)).
have sBE i j : B i j = B j i by rewrite -{1}sB mxE.
apply/matrixP=> i j; rewrite mxE col_mxKu col_mxKd mxE.
have up (a b : 'I_n) : (b = a.+1 :> nat) -> vec_at (\col_j mx_at B j j.+1 : 'cV[C]_n.-1) a = B a b.
  move=> E; have h : (a < n.-1)%N by rewrite -ltnS prednK ?(leq_ltn_trans _ (ltn_ord b)) // -E.
  by rewrite /vec_at insubT mxE /= -E mx_atE.
case: (eqVneq i j) => [<-|ne].
  by rewrite !(ltn_eqF (ltnSn _)) !addr0.
rewrite add0r; case: (eqVneq (j : nat) i.+1) => [E|n1].
  by rewrite E (ltn_eqF (ltnW (ltnSn _))) // addr0 (up i j).
case: (eqVneq (i : nat) j.+1) => [E|n2]; first by rewrite add0r (up j i) // sBE.
rewrite addr0 tB // !addn1.
move: ne; rewrite -val_eqE /= neq_ltn => /orP[h|h]; apply/orP; [left|right].
  by rewrite ltn_neqAle eq_sym n1.
by rewrite ltn_neqAle eq_sym n2.
Qed.
Lemma symtri_best : lsqr_ok pn (re_mx (tri_T X)) (re_mx (tri_d X Y)) ->
  best (@sym_tridiagonal C n) X Y (tri_matrix (tri_c pn X Y)).
Proof.
rewrite /tri_c (re_real triT_real) (re_real trid_real) -tri_gram -tri_rhs => -[H r].
split; first exact: tri_matrix_ok.
by move=> B /tri_matrix_of[c ->]; rewrite -!tri_combine; apply: normal_best.
Qed.
End Tri.
End Toep.
