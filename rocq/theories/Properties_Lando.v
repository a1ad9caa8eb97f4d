(** * LANDO: the dictionary and the weights (C48) *)
From mathcomp Require Import all_ssreflect all_algebra all_field.
From Verif Require Import Py LinAlg Model_Operator Spec_Operator Model_Lando Spec_Lando Proofs_Lando Proofs_LandoDict Proofs_LandoOnline
  Proofs_LandoFit.
Set Implicit Arguments. Unset Strict Implicit. Unset Printing Implicit Defensive.
Import Order.TTheory GRing.Theory Num.Theory.
Local Open Scope ring_scope.

Section Calls.
Variables (C : numClosedFieldType) (np : numpy C) (n : nat) (ex : C -> C) (ks : kspec C n) (cplx : bool).
Local Notation lando := (lando C n).
Local Notation k := (kernel ex ks).

(** ** Specification *)
(** the argument of a fit or an update: one matrix of snapshots, or two of inputs and outputs *)
Inductive snaps := Single N of 'M[C]_(n, N.+1) | Pair N of 'M[C]_(n, N) & 'M[C]_(n, N).
Definition count (c : snaps) : nat := match c with Single N _ => N | Pair N _ _ => N end.
(** the inputs and the outputs *)
Definition inputs (c : snaps) : 'M[C]_(n, count c) :=
  match c with Single N M => \matrix_(i < n, j < N) M i (widen_ord (leqnSn N) j) | Pair _ X _ => X end.
Definition outputs (c : snaps) : 'M[C]_(n, count c) :=
  match c with Single N M => \matrix_(i < n, j < N) M i (lift ord0 j) | Pair _ _ Y => Y end.
(** [sh]: the random permutation of this call *)
Definition shuffles (sh : forall N, seq 'I_N -> seq 'I_N) : Prop := forall N, perm_eq (sh N (enum 'I_N)) (enum 'I_N).
Definition call_fit sh (d : lando) (shape : seq nat) (c : snaps) : lando * result unit :=
  match c with Single N M => fit np ex ks cplx sh d shape M | Pair N X Y => fit_xy np ex ks cplx sh d shape X Y end.
Definition call_update sh (d : lando) (c : snaps) : lando * result unit :=
  match c with Single N M => update np ex ks cplx sh d M | Pair N X Y => update_xy np ex ks cplx sh d X Y end.
(** the order in which the pairs are seen, the inputs as they are seen (after the total least squares of the option
    tlsq_rank, times x_rescale), and the outputs *)
Definition order (sh : forall N, seq 'I_N -> seq 'I_N) (d : lando) (c : snaps) : seq 'I_(count c) :=
  if lc_permute (la_cfg d) then sh (count c) (enum 'I_(count c)) else enum 'I_(count c).
Definition raw (d : lando) (c : snaps) := (compute_tlsq np (inputs c) (outputs c) (lc_tlsq (la_cfg d))).1.
Definition xs_of sh (d : lando) (c : snaps) : seq 'cV[C]_n := [seq col i (rescaled (la_scale d) (raw d c)) | i <- order sh d c].
Definition ys_of sh (d : lando) (c : snaps) : seq 'cV[C]_n :=
  [seq col i (compute_tlsq np (inputs c) (outputs c) (lc_tlsq (la_cfg d))).2 | i <- order sh d c].
(** a fit, then updates and analyses, in any number and order, whether or not they end with an exception *)
Inductive fed (d0 : lando) : seq 'cV[C]_n -> seq 'cV[C]_n -> lando -> Prop :=
| Fed_fit sh shape c d : shuffles sh -> call_fit sh d0 shape c = (d, Ok tt) -> fed d0 (xs_of sh d0 c) (ys_of sh d0 c) d
| Fed_update sh c d d' r xs ys : fed d0 xs ys d -> shuffles sh -> call_update sh d c = (d', r) ->
    fed d0 (xs ++ xs_of sh d c) (ys ++ ys_of sh d c) d'
| Fed_analysis d shape fp wantA d' r xs ys : fed d0 xs ys d ->
    analyze_fixed_point np ex ks d shape fp wantA = (d', r) -> fed d0 xs ys d'.

(** ** Proofs *)
Section Run.
Hypothesis PK : pos_kernel k.
Hypothesis LS : forall a b (M : 'M[C]_(a, b)) y, lstsq_ok np M y.
Hypothesis PI : forall a b (M : 'M[C]_(a, b)), pinv_ok np M.

Lemma inputsE N (M : 'M[C]_(n, N.+1)) : col' ord_max M = inputs (Single M).
Proof. by apply/matrixP => i j; rewrite !mxE; congr (M i _); apply: val_inj; rewrite /= /bump leqNgt ltn_ord. Qed.
Lemma outputsE N (M : 'M[C]_(n, N.+1)) : col' ord0 M = outputs (Single M).
Proof. by apply/matrixP => i j; rewrite !mxE. Qed.
Lemma parsingE sh d c : parsing sh (lc_permute (la_cfg d)) (count c) = order sh d c.
Proof. by []. Qed.
Lemma factors_check (sc : rescale C n) shape sc' : check_rescale sc shape = Ok sc' -> factors sc' = factors sc.
Proof. by case: sc => [a|sh v|] //=; [case=> <- | case: ifP => // _ [<-]]. Qed.
Lemma rescaled_check (sc : rescale C n) shape sc' a (X : 'M[C]_(n, a)) : check_rescale sc shape = Ok sc' -> rescaled sc' X = rescaled sc X.
Proof. by move/factors_check => E; rewrite /rescaled E. Qed.

Lemma call_fitP sh d shape c d' : call_fit sh d shape c = (d', Ok tt) -> exists o,
  [/\ la_op d' = Some o, la_cfg d' = la_cfg d, factors (la_scale d') = factors (la_scale d), la_shape d' = shape &
    compute_operator np ex ks cplx (lc_online (la_cfg d)) (lc_tol (la_cfg d)) (lc_lstsq (la_cfg d)) false (la_op d)
      (order sh d c) (rescaled (la_scale d) (raw d c)) (compute_tlsq np (inputs c) (outputs c) (lc_tlsq (la_cfg d))).2 = Ok o].
Proof.
suff G N (M : 'M[C]_(n, N)) : fit_pair np ex ks cplx sh d shape M (inputs c) (outputs c) = (d', Ok tt) -> exists o,
  [/\ la_op d' = Some o, la_cfg d' = la_cfg d, factors (la_scale d') = factors (la_scale d), la_shape d' = shape &
    compute_operator np ex ks cplx (lc_online (la_cfg d)) (lc_tol (la_cfg d)) (lc_lstsq (la_cfg d)) false (la_op d)
      (order sh d c) (rescaled (la_scale d) (raw d c)) (compute_tlsq np (inputs c) (outputs c) (lc_tlsq (la_cfg d))).2 = Ok o].
  case: c G => [N M | N X Y] G; rewrite /call_fit; last exact: G.
  by rewrite /fit inputsE outputsE; exact: G.
rewrite /fit_pair; case Ec: (check_rescale _ _) => [sc|] //.
case E: (compute_operator _ _ _ _ _ _ _ _ _ _ _ _) => [o|] // [<-] /=; exists o; split=> //.
  exact: factors_check Ec.
by rewrite -E -parsingE (rescaled_check _ Ec).
Qed.

(** a fit, whether or not it succeeds, keeps the analysis *)
Lemma call_fit_keeps sh d shape c d' r : call_fit sh d shape c = (d', r) ->
  [/\ la_lin d' = la_lin d, la_A d' = la_A d, la_fix d' = la_fix d, la_b d' = None & la_px d' = None].
Proof.
suff G N (M : 'M[C]_(n, N)) : fit_pair np ex ks cplx sh d shape M (inputs c) (outputs c) = (d', r) ->
  [/\ la_lin d' = la_lin d, la_A d' = la_A d, la_fix d' = la_fix d, la_b d' = None & la_px d' = None].
  case: c G => [N M | N X Y] G; rewrite /call_fit; last exact: G.
  by rewrite /fit inputsE outputsE; exact: G.
rewrite /fit_pair; case Ec: (check_rescale _ _) => [sc|e]; last by case=> <- _.
by case E: (compute_operator _ _ _ _ _ _ _ _ _ _ _ _) => [o|e] [<- _].
Qed.
Lemma analyze_at_keeps d o fp w d' r : analyze_at np ex ks d o fp w = (d', r) ->
  [/\ la_op d' = la_op d, la_cfg d' = la_cfg d, la_scale d' = la_scale d & la_shape d' = la_shape d].
Proof.
have Sk (d1 : lando) : let d2 := (seen d1).1 in
  [/\ la_op d2 = la_op d1, la_cfg d2 = la_cfg d1, la_scale d2 = la_scale d1 & la_shape d2 = la_shape d1].
  rewrite /seen /shown; case: (la_lin d1) => [l|] //=; case: (la_px d1) => [p|] //=.
  by case: (la_b d1) => [[j b]|] //=; case: eqP.
rewrite /analyze_at; case: (linear_operator _ _ _ _ _ _ _) => [[l A]|e]; last by case=> <-.
set d2 := Lando _ _ _ _ _ _ _ _ _ _ _; have := Sk d2; case: (seen d2) => d3 [[[j [Phi e]]|]|e] /= H; case: (la_snap d) => [[N Sn]|].
all: try by case=> <- _; exact: H.
by case: (Model_EDMD.edmd_amplitudes _ _ _ _ _) => [b|e'] [<-] //=; exact: H.
Qed.

Lemma call_updateP sh d c d' r o : lc_online (la_cfg d) -> la_op d = Some o -> call_update sh d c = (d', r) -> exists o',
  [/\ la_op d' = Some o', la_cfg d' = la_cfg d, la_scale d' = la_scale d, la_shape d' = la_shape d &
    compute_operator np ex ks cplx true (lc_tol (la_cfg d)) (lc_lstsq (la_cfg d)) true (Some o)
      (order sh d c) (rescaled (la_scale d) (raw d c)) (compute_tlsq np (inputs c) (outputs c) (lc_tlsq (la_cfg d))).2 = Ok o'].
Proof.
move=> On Eo; have -> : call_update sh d c = update_pair np ex ks cplx sh d (inputs c) (outputs c).
  case: c => [N M | N X Y]; last exact: erefl.
  rewrite /call_update /update inputsE outputsE; exact: erefl.
rewrite /update_pair Eo On -!parsingE; rewrite -/(raw d c).
case E: (compute_operator _ _ _ _ _ _ _ _ _ _ _ _) => [o'|e]; last by [].
case: (la_lin d) => [l|]; last by case=> <- _; exists o'.
case: (la_fix d) => [[fp b]|]; last by case=> <- _; exists o'.
by move/analyze_at_keeps => /= [-> -> -> ->]; exists o'.
Qed.

(** the state after a fit and updates in the online mode *)
Lemma fedP d0 xs ys d : fed d0 xs ys d -> lc_online (la_cfg d0) -> 0 <= lc_tol (la_cfg d0) ->
  (forall x, x \in xs -> realm x) -> (forall x, ohead xs = Some x -> k x x != 0) ->
  exists o D cs, [/\ la_op d = Some o, la_cfg d = la_cfg d0, factors (la_scale d) = factors (la_scale d0) &
    holds_rls ex ks (lc_tol (la_cfg d0)) xs ys o D cs].
Proof.
move=> H On t0; elim: H => {xs ys d}.
- move=> sh shape c d _ /call_fitP [o [Eo Ec Ef _ Em]] R K0; rewrite On in Em.
  have [|D [cs H]] := @fit_rls C np n ex ks cplx PK LS _ _ _ _ _ _ _ _ t0 R _ Em; last by exists o, D, cs.
  by move=> i Hi; apply: K0; rewrite /xs_of; case: (order _ _ _) Hi => //= a l [->].
- move=> sh c d d' r xs ys _ IH _ E R K0.
  have [||o [D [cs [Eo Ec Ef H]]]] := IH.
  + by move=> x I; apply: R; rewrite mem_cat I.
  + by move=> x I; apply: K0; case: (xs) I.
  have On' : lc_online (la_cfg d) by rewrite Ec.
  have [o' [Eo' Ec' Es' _ Em]] := call_updateP On' Eo E; rewrite -Ec in H t0 *.
  have [|D' [cs' H']] := @update_rls C np n ex ks cplx PK LS _ _ _ _ _ _ _ _ _ _ _ _ t0 _ H Em.
    by move=> x I; apply: R; rewrite mem_cat I orbT.
  by exists o', D', cs'; split=> //; rewrite ?Es' ?Ec' ?Ec.
move=> d shape fp w d' r xs ys _ IH E R K0; have [o [D [cs [Eo Ec Ef H]]]] := IH R K0; exists o, D, cs.
move: E; rewrite /analyze_fixed_point Eo; case: ifP => _; last by case=> <-.
by move/analyze_at_keeps => [-> -> -> _].
Qed.

Lemma learns_coded tol xs D : learns k tol xs D -> exists cs, coded k tol xs D cs.
Proof.
elim=> [x | xs' D' x d _ [cs L] Hd T | xs' D' x d _ [cs L] Hd T]; first by exists [:: place C 0]; exact: D_first.
  by exists (rcons cs (place C (size D'))); exact: D_take L Hd T.
by have [c Ap] := Hd.1; exists (rcons cs (coeffs c)); exact: D_skip L Hd T Ap.
Qed.
Lemma chol_unit o : chol_inv ex ks o -> kernels k (lo_D o) (lo_D o) \in unitmx.
Proof. by case=> _ _ U <-; rewrite unitmx_mul U adj_unit. Qed.

Lemma recover xs ys D (W : 'M[C]_(n, size D)) cs Ts (B : 'M[C]_(n, size Ts)) a (Z : 'M[C]_(n, a)) :
  coded k 0 xs D cs -> size ys = size xs -> (forall x, x \in xs -> realm x) -> kernels k (cols D) (cols D) \in unitmx ->
  (forall V, data_error k (cols D) W xs ys <= data_error k (cols D) V xs ys) ->
  {subset Ts <= xs} -> (forall p, p \in zip xs ys -> p.2 = B *m kernels k (cols Ts) p.1) -> realm Z ->
  W *m kernels k (cols D) Z = B *m kernels k (cols Ts) Z.
Proof.
move=> L Sz R U Opt Sub HB RZ.
have RD : realm (cols D) by apply: cols_real => z /(mem_subseq (coded_sub L)); apply: R.
have RT : realm (cols Ts) by apply: cols_real => z /Sub; apply: R.
have colT (j : 'I_(size Ts)) : col j (cols Ts) = nth 0 Ts j by apply/matrixP => i l; rewrite !mxE !ord1.
pose M := \matrix_(i < size D, j < size Ts) cvec (size D) (nth (fun=> 0) cs (index (nth 0 Ts j) xs)) i 0.
have ET b (Y : 'M[C]_(n, b)) : realm Y -> kernels k (cols Ts) Y = adj M *m kernels k (cols D) Y.
  move=> RY; rewrite -(kernels_adj PK RY RT) -(kernels_adj PK RY RD) -adjM; congr (adj _); apply: by_cols => j.
  have I : nth 0 Ts j \in xs by apply: Sub; rewrite mem_nth.
  have := coded_exact PK L R RY (j := index (nth 0 Ts j) xs); rewrite index_mem => /(_ I); rewrite nth_index // => E.
  rewrite [RHS]colE -mulmxA -colE; have -> : col j M = cvec (size D) (nth (fun=> 0) cs (index (nth 0 Ts j) xs)).
    by apply/matrixP => i l; rewrite !mxE.
  by rewrite -E; apply/matrixP => i l; rewrite !mxE colT !ord1 col_id.
have E0 : data_error k (cols D) (B *m adj M) xs ys = 0.
  apply/data_error0 => p I; rewrite (HB p I) -mulmxA -ET //.
  by apply: R; case: p I => x y I; have := map_f fst I; rewrite /= -/(unzip1 _) unzip1_zip ?Sz.
have E1 : data_error k (cols D) W xs ys = 0.
  apply/eqP; rewrite eq_le; apply/andP; split; first by rewrite -[X in _ <= X]E0.
  by apply: sumr_ge0 => p _; apply: frob2_ge0.
suff -> : W = B *m adj M by rewrite -mulmxA -ET.
apply: (weights_unique U (coded_sub L)) => x I; have /data_error0 H0 := E0; have /data_error0 H1 := E1.
have I' : (x, nth 0 ys (index x xs)) \in zip xs ys.
  have := @mem_nth _ (0, 0) (zip xs ys) (index x xs); rewrite size_zip Sz minnn index_mem => /(_ I).
  by rewrite nth_zip // nth_index.
by rewrite -(H1 _ I') -(H0 _ I').
Qed.

(** ** C48: the dictionary and the weights *)
(** Offline: the dictionary is learnt in one pass over the scaled inputs; the model is the best one in the span of
    the kernels of the dictionary. *)
Theorem C48_offline d0 sh shape c d : shuffles sh -> call_fit sh d0 shape c = (d, Ok tt) ->
  lc_online (la_cfg d0) = false -> 0 <= lc_tol (la_cfg d0) ->
  (forall x, x \in xs_of sh d0 c -> realm x) -> (forall x, ohead (xs_of sh d0 c) = Some x -> k x x != 0) ->
  exists D (W : 'M[C]_(n, size D)),
    [/\ learns k (lc_tol (la_cfg d0)) (xs_of sh d0 c) D,
        forall a (X : 'M[C]_(n, a)), f ex ks d shape X = Ok (W *m kernels k (cols D) (rescaled (la_scale d0) X)),
        forall V, data_error k (cols D) W (xs_of sh d0 c) (ys_of sh d0 c)
               <= data_error k (cols D) V (xs_of sh d0 c) (ys_of sh d0 c) &
        kernels k (cols D) (cols D) \in unitmx].
Proof.
move=> SH /call_fitP [o [Eo Ec Ef Esh Em]] Off t0 R K0; rewrite Off in Em.
have [|I [D [L E]]] := @fit_holds C np n ex ks cplx PK LS _ _ _ _ _ _ _ _ _ t0 R _ Em.
  by move=> i Hi; apply: K0; rewrite /xs_of; case: (order _ _ _) Hi => //= a l [->].
have Pm : perm_eq (order sh d0 c) (enum 'I_(count c)) by rewrite /order; case: ifP => // _; exact: SH.
have [W HW] := repack E; exists D, W; split=> //.
- have := HW (fun m D W => forall a (X : 'M[C]_(n, a)), f ex ks d shape X = Ok (W *m kernels k D (rescaled (la_scale d0) X))).
  apply=> a X; rewrite /f Eo Esh eqxx /model_of /rescaled Ef //.
- have := HW (fun m D W => forall V, data_error k D W (xs_of sh d0 c) (ys_of sh d0 c)
               <= data_error k D V (xs_of sh d0 c) (ys_of sh d0 c)).
  apply=> V; rewrite !data_errorE //; have [i [rest [_ Eo']]] := fit_operator Em; rewrite /= in Eo'.
  by move: V; rewrite Eo' => V; exact: weigh_optimal.
exact: (HW (fun m D _ => kernels k D D \in unitmx) (chol_unit I)).
Qed.

(** Online: the same dictionary, over the inputs of the fit and of all updates.  The weights are the best ones for the
    inputs replaced by their nearest combinations at the time they were seen. *)
Theorem C48_online d0 xs ys d : fed d0 xs ys d -> lc_online (la_cfg d0) -> 0 <= lc_tol (la_cfg d0) ->
  (forall x, x \in xs -> realm x) -> (forall x, ohead xs = Some x -> k x x != 0) ->
  exists D cs (W : 'M[C]_(n, size D)),
    [/\ learns k (lc_tol (la_cfg d0)) xs D, coded k (lc_tol (la_cfg d0)) xs D cs,
        forall a (X : 'M[C]_(n, a)), f ex ks d (la_shape d) X = Ok (W *m kernels k (cols D) (rescaled (la_scale d0) X)),
        forall V, coded_error k (cols D) W ys cs <= coded_error k (cols D) V ys cs &
        kernels k (cols D) (cols D) \in unitmx].
Proof.
move=> F On t0 R K0; have [o [D [cs [Eo Ec Ef H]]]] := fedP F On t0 R K0; have [I L Sz E _ _] := H.
have [W HW] := repack E; exists D, cs, W; split=> //.
- exact: coded_learns L.
- have := HW (fun m D W => forall a (X : 'M[C]_(n, a)), f ex ks d (la_shape d) X = Ok (W *m kernels k D (rescaled (la_scale d0) X))).
  by apply=> a X; rewrite /f Eo eqxx /model_of /rescaled Ef.
- have := HW (fun m D W => forall V, coded_error k D W ys cs <= coded_error k D V ys cs).
  by apply=> V; exact: rls_optimal H.
exact: (HW (fun m D _ => kernels k D D \in unitmx) (chol_unit I)).
Qed.
(** with the tolerance 0 they are the best ones for all the data: the same as those of a fit on everything *)
Theorem C48_online_exact d0 xs ys d : fed d0 xs ys d -> lc_online (la_cfg d0) -> lc_tol (la_cfg d0) = 0 ->
  (forall x, x \in xs -> realm x) -> (forall x, ohead xs = Some x -> k x x != 0) ->
  exists D (W : 'M[C]_(n, size D)),
    [/\ learns k 0 xs D,
        forall a (X : 'M[C]_(n, a)), f ex ks d (la_shape d) X = Ok (W *m kernels k (cols D) (rescaled (la_scale d0) X)) &
        forall V, data_error k (cols D) W xs ys <= data_error k (cols D) V xs ys].
Proof.
move=> F On t0 R K0; have t1 : 0 <= lc_tol (la_cfg d0) by rewrite t0.
have [o [D' [cs' [_ _ _ [_ _ Sz _ _ _]]]]] := fedP F On t1 R K0.
have [D [cs [W [L Cd HW Opt _]]]] := C48_online F On t1 R K0; rewrite t0 in L Cd.
exists D, W; split=> // V; by rewrite -!(coded_error_exact PK _ Cd R Sz).
Qed.

(** A map in the span of the kernels of the inputs is learnt exactly. *)
Theorem C48_recovery_online d0 xs ys d Ts (B : 'M[C]_(n, size Ts)) : fed d0 xs ys d -> lc_online (la_cfg d0) ->
  lc_tol (la_cfg d0) = 0 -> (forall x, x \in xs -> realm x) -> (forall x, ohead xs = Some x -> k x x != 0) ->
  {subset Ts <= xs} -> (forall p, p \in zip xs ys -> p.2 = B *m kernels k (cols Ts) p.1) ->
  forall a (X : 'M[C]_(n, a)), realm (rescaled (la_scale d0) X) ->
    f ex ks d (la_shape d) X = Ok (B *m kernels k (cols Ts) (rescaled (la_scale d0) X)).
Proof.
move=> F On t0 R K0 Sub HB a X RX; have t1 : 0 <= lc_tol (la_cfg d0) by rewrite t0.
have [o [D' [cs' [_ _ _ [_ _ Sz _ _ _]]]]] := fedP F On t1 R K0.
have [D [cs [W [L Cd HW Opt U]]]] := C48_online F On t1 R K0; rewrite t0 in L Cd; rewrite HW; congr Ok.
by apply: (recover Cd Sz R U _ Sub HB RX) => V; rewrite -!(coded_error_exact PK _ Cd R Sz).
Qed.
Theorem C48_recovery_offline d0 sh shape c d Ts (B : 'M[C]_(n, size Ts)) : shuffles sh ->
  call_fit sh d0 shape c = (d, Ok tt) -> lc_online (la_cfg d0) = false -> lc_tol (la_cfg d0) = 0 ->
  (forall x, x \in xs_of sh d0 c -> realm x) -> (forall x, ohead (xs_of sh d0 c) = Some x -> k x x != 0) ->
  {subset Ts <= xs_of sh d0 c} ->
  (forall p, p \in zip (xs_of sh d0 c) (ys_of sh d0 c) -> p.2 = B *m kernels k (cols Ts) p.1) ->
  forall a (X : 'M[C]_(n, a)), realm (rescaled (la_scale d0) X) ->
    f ex ks d shape X = Ok (B *m kernels k (cols Ts) (rescaled (la_scale d0) X)).
Proof.
move=> SH E Off t0 R K0 Sub HB a X RX; have t1 : 0 <= lc_tol (la_cfg d0) by rewrite t0.
have [D [W [L HW Opt U]]] := C48_offline SH E Off t1 R K0; rewrite t0 in L; rewrite HW; congr Ok.
have [cs Cd] := learns_coded L; apply: (recover Cd _ R U Opt Sub HB RX); by rewrite /xs_of /ys_of !size_map.
Qed.

(** With no factor 0 in x_rescale, sparse_dictionary gives back input snapshots, as they were
    before scaling. *)
Lemma sg_unscale (v : 'cV[C]_n) (D0 : seq 'cV[C]_n) (g := fun x : 'cV[C]_n => \matrix_(i, j) (x i j * v i 0) : 'cV[C]_n) :
  (forall i, v i 0 != 0) ->
  existT (fun m => 'M[C]_(n, m)) _ (\matrix_(i, j) (cols [seq g x | x <- D0] i j / v i 0)) = existT _ _ (cols D0).
Proof.
move=> N.
have -> : \matrix_(i, j) (cols [seq g x | x <- D0] i j / v i 0) = castmx (erefl, esym (size_map g D0)) (cols D0).
  apply/matrixP => i j; rewrite castmxE !mxE /= cast_ord_id (nth_map 0) ?mxE ?mulfK //.
  by have := ltn_ord j; rewrite [X in (_ < X)%N]size_map.
by case: _ / (esym (size_map g D0)).
Qed.
Lemma sg_sparse (o : lop C n) D (v : 'cV[C]_n) : existT (fun m => 'M[C]_(n, m)) _ (lo_D o) = existT _ _ (cols D) ->
  existT (fun m => 'M[C]_(n, m)) _ (\matrix_(i, j) (lo_D o i j / v i 0)) = existT _ _ (\matrix_(i, j) (cols D i j / v i 0)).
Proof. exact: (congr1 (fun D : {m & 'M[C]_(n, m)} => existT _ _ (\matrix_(i, j) (projT2 D i j / v i 0)))). Qed.
Theorem C48_sparse_dictionary d0 sh shape c d : shuffles sh -> call_fit sh d0 shape c = (d, Ok tt) ->
  0 <= lc_tol (la_cfg d0) -> (forall i, factors (la_scale d0) i 0 != 0) ->
  (forall x, x \in xs_of sh d0 c -> realm x) -> (forall x, ohead (xs_of sh d0 c) = Some x -> k x x != 0) ->
  exists D0, [/\ sparse_dictionary d = Ok (existT _ _ (cols D0)), subseq D0 [seq col i (raw d0 c) | i <- order sh d0 c] &
    learns k (lc_tol (la_cfg d0)) (xs_of sh d0 c) [seq rescaled (la_scale d0) x | x <- D0]].
Proof.
move=> SH /call_fitP [o [Eo Ec Ef Esh Em]] t0 N R K0.
have [|I [D [L E]]] := @fit_holds C np n ex ks cplx PK LS _ _ _ _ _ _ _ _ _ t0 R _ Em.
  by move=> i Hi; apply: K0; rewrite /xs_of; case: (order _ _ _) Hi => //= a l [->].
have Ex : xs_of sh d0 c = [seq rescaled (la_scale d0) x | x <- [seq col i (raw d0 c) | i <- order sh d0 c]].
  by rewrite -map_comp; apply: eq_map => i /=; apply/matrixP => a b; rewrite !mxE.
have := learns_sub L; rewrite -/(xs_of sh d0 c) Ex => /subseqP [m Sm Em']; rewrite -map_mask in Em'.
exists (mask m [seq col i (raw d0 c) | i <- order sh d0 c]); split; last 2 first.
- exact: mask_subseq.
- by rewrite -Em' -Ex; exact: L.
rewrite /sparse_dictionary Eo Ef (sg_sparse _ E) Em'; congr Ok; exact: sg_unscale.
Qed.

(** ** The calls that are refused *)
Theorem C48_update_needs_online sh d c : lc_online (la_cfg d) = false -> call_update sh d c = (d, Err ValueError).
Proof.
move=> Off; have -> : call_update sh d c = update_pair np ex ks cplx sh d (inputs c) (outputs c).
  case: c => [N M | N X Y]; last exact: erefl.
  rewrite /call_update /update inputsE outputsE; exact: erefl.
by rewrite /update_pair; case: (la_op d) => // o; rewrite /compute_operator Off.
Qed.
Theorem C48_not_fitted sh d c shape a (X : 'M[C]_(n, a)) fp w x0 t : la_op d = None ->
  [/\ call_update sh d c = (d, Err ValueError), f ex ks d shape X = Err ValueError, sparse_dictionary d = Err ValueError,
      analyze_fixed_point np ex ks d shape fp w = (d, Err ValueError) & predict_discrete ex ks d shape x0 t = Err ValueError].
Proof.
move=> E; rewrite /f /sparse_dictionary /analyze_fixed_point /predict_discrete E; split=> //.
have -> : call_update sh d c = update_pair np ex ks cplx sh d (inputs c) (outputs c).
  case: c => [N M | N X' Y']; last exact: erefl.
  rewrite /call_update /update inputsE outputsE; exact: erefl.
by rewrite /update_pair E.
Qed.

(** ** A fit of at least one pair succeeds when x_rescale is a number, or an array of the shape of a snapshot *)
Theorem C48_fit_succeeds d0 sh shape c sc : shuffles sh -> check_rescale (la_scale d0) shape = Ok sc -> (0 < count c)%N ->
  exists d, call_fit sh d0 shape c = (d, Ok tt).
Proof.
move=> SH Ec N0; suff G N (M : 'M[C]_(n, N)) : exists d, fit_pair np ex ks cplx sh d0 shape M (inputs c) (outputs c) = (d, Ok tt).
  case: c N0 G => [N M | N X Y] N0 G; rewrite /call_fit; last exact: G.
  by rewrite /fit inputsE outputsE; exact: G.
rewrite /fit_pair Ec /compute_operator /= parsingE.
have : size (order sh d0 c) = count c.
  by rewrite -[RHS]size_enum_ord; apply: perm_size; rewrite /order; case: ifP => // _; exact: SH.
by case: (order sh d0 c) => [|i l] /= E; [rewrite -E in N0 | eexists].
Qed.
End Run.
End Calls.

(** ** Assumptions *)
Print Assumptions C48_offline.
Print Assumptions C48_online.
Print Assumptions C48_online_exact.
Print Assumptions C48_recovery_online.
Print Assumptions C48_recovery_offline.
Print Assumptions C48_sparse_dictionary.
Print Assumptions C48_update_needs_online.
Print Assumptions C48_not_fitted.
Print Assumptions C48_fit_succeeds.
