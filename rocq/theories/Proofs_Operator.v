From mathcomp Require Import all_ssreflect all_algebra fingroup perm.
From Verif Require Import Py LinAlg Model_Operator Spec_Operator Proofs_OpCore.
Set Implicit Arguments. Unset Strict Implicit. Unset Printing Implicit Defensive.
Import Order.TTheory GRing.Theory Num.Theory.
Local Open Scope ring_scope.

Section Proofs.
Variable C : numClosedFieldType.
Implicit Type np : numpy C.

Lemma take_colsE n k (M : 'M[C]_(n, k)) (r : 'I_k.+1) : take_cols M r = M *m sel_mx C k r.
Proof. by rewrite -(sel_mx_colE M (leq_ord r)). Qed.

Lemma dmd_mapE n m r (Y : 'M[C]_(n, m)) (U : 'M[C]_(n, r)) s V : dmd_map Y U s V = full_op Y U s V.
Proof. by []. Qed.

(** ** compute_tlsq *)
Lemma projE k m (Vh : 'M[C]_(k, m)) (a : nat) :
  tlsq_projector Vh a = adj Vh *m diag_mx (\row_(l < k) (l < a)%:R) *m Vh.
Proof.
apply/matrixP=> i j; rewrite !mxE [RHS](eq_bigr (fun l : 'I_k => if (l < a)%N then (Vh l i)^* * Vh l j else 0)).
  by rewrite -big_mkcond.
move=> l _; rewrite mul_mx_diag !mxE; case: ifP=> _; first by rewrite mulr1.
by rewrite mulr0 mul0r.
Qed.
Lemma proj_idem k m (Vh : 'M[C]_(k, m)) a : Vh *m adj Vh = 1%:M ->
  tlsq_projector Vh a *m tlsq_projector Vh a = tlsq_projector Vh a.
Proof.
move=> HV; rewrite projE -!mulmxA (mulmxA Vh) HV mul1mx (mulmxA (diag_mx _) (diag_mx _)) mulmx_diag.
do 2 congr (_ *m _); congr diag_mx; apply/matrixP=> i j; rewrite !mxE.
by case: ltnP=> _; rewrite ?mulr1 ?mulr0.
Qed.
Lemma proj_herm k m (Vh : 'M[C]_(k, m)) a : adj (tlsq_projector Vh a) = tlsq_projector Vh a.
Proof.
rewrite projE !adjM adjK adj_diag mulmxA; do 2 congr (_ *m _); congr diag_mx.
by apply/matrixP=> i j; rewrite !mxE; case: ltnP=> _; rewrite ?conjC1 ?conjC0.
Qed.
Lemma proj_full k m (Vh : 'M[C]_(k, m)) a : (k <= a)%N -> tlsq_projector Vh a = adj Vh *m Vh.
Proof.
move=> H; rewrite projE; have -> : \row_(l < k) (l < a)%:R = const_mx 1 :> 'rV[C]_k.
  by apply/matrixP=> i j; rewrite !mxE (leq_trans (ltn_ord j) H).
by rewrite diag_const_mx mulmx1.
Qed.

Theorem tlsq_spec np n m (X Y : 'M[C]_(n, m)) t : t != 0 -> svd_ok np (col_mx X Y) ->
  exists P : 'M[C]_m,
    [/\ compute_tlsq np X Y t = (X *m P, Y *m P), P *m P = P, adj P = P &
        (minn (n + n) m)%:Z <= t -> X *m P = X /\ Y *m P = Y].
Proof.
move=> Ht Hs; rewrite /compute_tlsq (negbTE Ht).
exists (tlsq_projector (np_svd np (col_mx X Y)).2 (slice_rows t (minn (n + n) m))).
case: Hs=> EX HU HV _ _; split; [by []|exact: proj_idem|exact: proj_herm|].
move=> Hk.
have E : slice_rows t (minn (n + n) m) = minn (n + n) m.
  by case: t Hk Ht=> // a Ha _ /=; apply/minn_idPr; rewrite lez_nat in Ha.
rewrite E proj_full //; move: (np_svd np _) EX HV=> [[U s] Vh] /= EX HV.
have : col_mx X Y *m (adj Vh *m Vh) = col_mx X Y.
  by rewrite EX -!mulmxA (mulmxA Vh) HV mul1mx.
by rewrite mul_col_mx => /eq_col_mx.
Qed.

Theorem tlsq_truncates np n m (X Y : 'M[C]_(n, m)) (t : nat) : t != 0%N -> svd_ok np (col_mx X Y) ->
  let XY := compute_tlsq np X Y t in
  let: (U, s, Vh) := np_svd np (col_mx X Y) in
  col_mx XY.1 XY.2 = U *m diag_mx (\row_j (if (j < t)%N then s 0 j else 0)) *m Vh.
Proof.
move=> Ht; rewrite /svd_ok /compute_tlsq /=; case E: (np_svd np _) => [[U s] Vh] /= [EX HU HV _ _].
have -> : (t%:Z == 0) = false by case: t Ht.
rewrite /= -mul_col_mx EX projE -!mulmxA (mulmxA Vh) HV mul1mx (mulmxA (diag_mx _) (diag_mx _)) mulmx_diag.
do 2 congr (_ *m _); congr diag_mx; apply/matrixP=> i j; rewrite !mxE leq_min ltn_ord andbT.
by case: ltnP=> _; rewrite ?mulr1 ?mulr0.
Qed.

(** ** Sorting *)
Lemma key_abs_total : total (@key_abs C).
Proof. by move=> a b; rewrite /key_abs; apply: real_leVge; exact: normr_real. Qed.
Lemma key_abs_trans : transitive (@key_abs C).
Proof. by move=> b a c; exact: le_trans. Qed.
Lemma key_real_total : total (@key_real C).
Proof.
move=> a b; rewrite /key_real.
have [E|N] := eqVneq ('Re a) ('Re b).
  by rewrite E ltxx /=; apply: real_leVge; exact: Creal_Im.
have N' : 'Re b != 'Re a by rewrite eq_sym.
have /orP := real_leVge (Creal_Re a) (Creal_Re b); rewrite !le_eqVlt (negbTE N) (negbTE N') /=.
by case=> ->; rewrite ?orbT.
Qed.
Lemma key_real_trans : transitive (@key_real C).
Proof.
move=> b a c; rewrite /key_real => /orP [H1|/andP [/eqP H1 H2]] /orP [H3|/andP [/eqP H3 H4]].
- by rewrite (lt_trans H1 H3).
- by rewrite -H3 H1.
- by rewrite H1 H3.
- by rewrite H1 H3 eqxx (le_trans H2 H4) orbT.
Qed.

Definition sort_key (so : sort_arg) (a b : C) : bool :=
  match so with SoAbs => key_abs a b | SoReal => key_real a b | _ => true end.

Section Sort.
Variable T : eqType.
Lemma sort_pairs_perm_eq so (l l' : seq (C * T)) : sort_pairs so l = Ok l' -> perm_eq l' l.
Proof. by case: so=> //= -[<-] //; rewrite perm_sort. Qed.
Lemma sort_pairs_sorted so (l l' : seq (C * T)) : sort_pairs so l = Ok l' ->
  match so with
  | SoAbs => sorted (fun p q => key_abs p.1 q.1) l'
  | SoReal => sorted (fun p q => key_real p.1 q.1) l'
  | _ => l' = l
  end.
Proof.
case: so=> //= -[<-] //; apply: sort_sorted=> p q; [exact: key_abs_total|exact: key_real_total].
Qed.
(** stability: pairs with equivalent keys keep their order *)
Lemma sort_pairs_stable so (l l' : seq (C * T)) (p : pred (C * T)) : sort_pairs so l = Ok l' ->
  (forall x y, p x -> p y -> sort_key so x.1 y.1) -> filter p l' = filter p l.
Proof.
have all_sorted (e : rel (C * T)) (s : seq (C * T)) : (forall x y, p x -> p y -> e x y) -> all p s -> sorted e s.
  move=> He; case: s=> //= x s; elim: s x=> //= y s IH x /and3P [px py ps].
  by rewrite (He _ _ px py) IH // py.
case: so=> [|||] //= [<-] // H.
- rewrite filter_sort; [|by move=> x y; exact: key_abs_total|by move=> x y z; exact: key_abs_trans].
  apply: sorted_sort; first by move=> x y z; exact: key_abs_trans.
  by apply: all_sorted=> //; exact: filter_all.
- rewrite filter_sort; [|by move=> x y; exact: key_real_total|by move=> x y z; exact: key_real_trans].
  apply: sorted_sort; first by move=> x y z; exact: key_real_trans.
  by apply: all_sorted=> //; exact: filter_all.
Qed.
End Sort.

Lemma size_eig_pairs r (lam : 'rV[C]_r) W : size (eig_pairs lam W) = r.
Proof. by rewrite size_map size_enum_ord. Qed.
Lemma nth_eig_pairs r (lam : 'rV[C]_r) W (j : 'I_r) : nth (0, 0) (eig_pairs lam W) j = (lam 0 j, col j W).
Proof. by rewrite (nth_map j) ?size_enum_ord // nth_ord_enum. Qed.

Lemma perm_pairs r (lam : 'rV[C]_r) W l : perm_eq l (eig_pairs lam W) ->
  exists p : 'S_r, forall j : 'I_r, nth (0, 0) l j = (lam 0 (p j), col (p j) W).
Proof.
move=> H.
have Hs : size (eig_pairs lam W) == r by rewrite size_eig_pairs.
case/(@tuple_permP _ _ l (Tuple Hs)): H => p ->; exists p=> j.
rewrite (nth_map j) ?size_enum_ord // nth_ord_enum (tnth_nth (0, 0)) /=.
by rewrite nth_eig_pairs.
Qed.

Lemma eigenquantities_inv np cfg r (A : 'M[C]_r) e v : eigenquantities np cfg A = Ok (e, v) ->
  exists Ah, ahat (c_rescale cfg) A = Ok Ah /\ exists l,
    sort_pairs (c_sorted cfg) (eig_pairs (np_eig np Ah).1 (np_eig np Ah).2) = Ok l /\
    e = pairs_eigs l /\ v = pairs_vecs l.
Proof.
rewrite /eigenquantities; case: (ahat _ A)=> [Ah|x] //=.
case E: (sort_pairs _ _)=> [l|x] //= [<- <-]; exists Ah; split=> //; exists l; split=> //.
Qed.

Lemma pairs_perm r (lam : 'rV[C]_r) (W : 'M[C]_r) l (p : 'S_r) :
  (forall j : 'I_r, nth (0, 0) l j = (lam 0 (p j), col (p j) W)) ->
  (forall j, pairs_eigs l 0 j = lam 0 (p j)) /\ (forall i j, pairs_vecs l i j = W i (p j)).
Proof. by move=> H; split=> [j|i j]; rewrite mxE H //= mxE. Qed.

(** the sorted pairs are the eigenpairs in another order *)
Theorem sorted_spec np cfg r (A : 'M[C]_r) e v : eigenquantities np cfg A = Ok (e, v) ->
  exists Ah, ahat (c_rescale cfg) A = Ok Ah /\
  exists p : 'S_r,
    [/\ forall j, e 0 j = (np_eig np Ah).1 0 (p j),
        forall j, col j v = col (p j) (np_eig np Ah).2,
        forall i j : 'I_r, (i <= j)%N -> sort_key (c_sorted cfg) (e 0 i) (e 0 j) &
        c_sorted cfg = SoNone -> e = (np_eig np Ah).1 /\ v = (np_eig np Ah).2].
Proof.
case/eigenquantities_inv=> Ah [HA [l [Hl [-> ->]]]]; exists Ah; split=> //.
have [p Hp] := perm_pairs (sort_pairs_perm_eq Hl); have [He Hv] := pairs_perm Hp.
exists p; split=> //.
- by move=> j; apply/colP=> i; rewrite !mxE Hp !mxE.
- have Sz : size l = r by rewrite (perm_size (sort_pairs_perm_eq Hl)) size_eig_pairs.
  move=> i j Hij; have := sort_pairs_sorted Hl; rewrite /sort_key; case: (c_sorted cfg) => //.
  + move=> /(@sorted_leq_nth _ _ (fun a b c => @key_abs_trans _ _ _) (fun a => lexx _) (0, 0)).
    by move=> /(_ i j); rewrite !inE !Sz !ltn_ord !mxE => /(_ isT isT Hij).
  + have R (a : C * 'cV[C]_r) : key_real a.1 a.1 by rewrite /key_real eqxx lexx orbT.
    move=> /(@sorted_leq_nth _ _ (fun a b c => @key_real_trans _ _ _) R (0, 0)).
    by move=> /(_ i j); rewrite !inE !Sz !ltn_ord !mxE => /(_ isT isT Hij).
- move=> So; move: Hl; rewrite So => -[<-]; split; apply/matrixP=> i j; rewrite !mxE nth_eig_pairs ?mxE //=.
  by rewrite (ord1 i).
Qed.

(** ** compute_operator *)
Lemma compute_operator_inv np n m cfg cfg' (X Y : 'M[C]_(n, m)) o :
  compute_operator np cfg X Y = (cfg', Ok o) ->
  let r := np_rank np (np_svd np X).1.2 n m (c_rank cfg) in
  let U := take_cols (np_svd np X).1.1 r in let s := take_cols (np_svd np X).1.2 r in
  let V := take_cols (adj (np_svd np X).2) r in
  exists A e v,
   [/\ forward_backward np cfg (np_norm np X) X Y (least_square_operator (c_tik cfg) (np_norm np X) U s V Y) = Ok A,
       cfg' = fix_rescale cfg s,
       eigenquantities np cfg' A = Ok (e, v) &
       o = OpFit U s V A e v (compute_modes cfg' (np_norm np X) Y U s V v)].
Proof.
rewrite /compute_operator; case: (np_svd np X)=> [[U s] Vh] /=.
case E: (forward_backward _ _ _ _ _ _)=> [A|x] //= -[Hc].
case F: (eigenquantities _ _ _)=> [[e v]|x] //= -[<-].
by exists A, e, v; split=> //; rewrite -Hc // F.
Qed.

Lemma forward_backwardE np cfg nX n m (X Y : 'M[C]_(n, m)) (r : 'I_(minn n m).+1) (A : 'M[C]_r) :
  forward_backward np cfg nX X Y A =
  if c_fb cfg then
    let Ab := least_square_operator (c_tik cfg) nX (take_cols (np_svd np Y).1.1 r) (take_cols (np_svd np Y).1.2 r)
                (take_cols (adj (np_svd np Y).2) r) X in
    if Ab \in unitmx then Ok (np_sqrtm np (A *m invmx Ab)) else Err LinAlgError
  else Ok A.
Proof. by rewrite /forward_backward; case: (np_svd np Y)=> [[U s] Vh]. Qed.

Lemma compute_operatorE np n m cfg (X Y : 'M[C]_(n, m)) A cfg' e v :
  let r := np_rank np (np_svd np X).1.2 n m (c_rank cfg) in
  let U := take_cols (np_svd np X).1.1 r in let s := take_cols (np_svd np X).1.2 r in
  let V := take_cols (adj (np_svd np X).2) r in
  forward_backward np cfg (np_norm np X) X Y (least_square_operator (c_tik cfg) (np_norm np X) U s V Y) = Ok A ->
  cfg' = fix_rescale cfg s -> eigenquantities np cfg' A = Ok (e, v) ->
  compute_operator np cfg X Y = (cfg', Ok (OpFit U s V A e v (compute_modes cfg' (np_norm np X) Y U s V v))).
Proof.
rewrite /compute_operator; move: A e v; case: (np_svd np X)=> [[U s] Vh] /= A e v -> -> E.
by rewrite E.
Qed.
End Proofs.
