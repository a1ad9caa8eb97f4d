(** * C46: COSTS and mrCOSTS, saving and restoring *)
From Coq Require Import QArith String Ascii List.
From mathcomp Require Import all_ssreflect all_fingroup all_algebra.
From Verif Require Import Py LinAlg Model_Operator Model_BOP Model_CostsWin Model_Costs Model_MrCosts Model_CostsIO.
From Verif Require Import Spec_Costs Spec_CostsWin Spec_CostsIO Proofs_CostsWin Proofs_CostsBand Proofs_CostsFit Proofs_CostsLoop Proofs_CostsIO.
From Verif Require Model_Utils.
Set Implicit Arguments. Unset Strict Implicit. Unset Printing Implicit Defensive.
Import GRing.Theory Num.Theory.
Local Open Scope ring_scope.

Section One.
Variable C : numClosedFieldType.
Variable x : ext C.
Variable y : cext C.

(** keyword names as a Python dictionary has them: different, and none contains the marker of the attributes *)
Definition own_keys (kw : seq (string * pyval)) : Prop :=
  List.NoDup (List.map fst kw) /\ forall k v, In (k, v) kw -> contains "pydmd_kwargs__" k = false.

Lemma savedE n (o : obj C n) d : to_xarray o = Ok d -> exists f b rk t l,
  [/\ c_fit (ob_c o) = Some f, c_bands (ob_c o) = Some b, cc_rank (c_cfg (ob_c o)) = Some rk & sanitize (ob_trans o) = Ok t] /\
  [/\ shapes f b rk (c_win (ob_c o)), store (ob_kw o) = Ok l
    & d = Dataset f b (Some rk) (c_win (ob_c o)) (cc_global (c_cfg (ob_c o))) (("omega_transformation"%string, t) :: l)].
Proof.
rewrite /to_xarray; case: (c_fit _) => // f; case: (c_bands _) => // b; case: (cc_rank _) => // rk.
case: (sanitize _) => // t; cbn [bind]; case: ifP => // S; case: (store _) => // l; cbn [bind] => -[<-].
by exists f, b, rk, t, l.
Qed.
Lemma restoreE n m (o : obj C n) (o0 : obj C m) d o' : own_keys (ob_kw o) -> to_xarray o = Ok d -> from_xarray o0 d = Ok o' ->
  [/\ same_results (ob_c o) (ob_c o'), all_back (ob_kw o) = Ok (ob_kw o'), ob_pre o' = ob_pre o0
    & (let! t := sanitize (ob_trans o) in Ok (unsanitize t)) = Ok (ob_trans o')].
Proof.
move=> [Nd Nm] /savedE[f [b [rk [t [l [[Ef Eb Er Et] [_ Es ->]]]]]]].
rewrite /from_xarray; cbn [ds_attrs]; rewrite /load -/load (_ : contains "pydmd_kwargs" _ = false) //.
rewrite (_ : contains "omega_transformation" _ = true) // (loadP _ Es Nm) //.
case: (all_back _) => // vs; cbn [bind] => -[<-].
by rewrite Et; split=> //; split; rewrite ?Ef ?Eb ?Er.
Qed.

(** What comes back: all results and sizes, svd_rank, global_svd and every keyword, as [comes_back] says. *)
Theorem C46_round_trip n m (o : obj C n) (o0 : obj C m) d o' :
  own_keys (ob_kw o) -> to_xarray o = Ok d -> from_xarray o0 d = Ok o' ->
  restored_as o o'.
Proof.
move=> K S R; have [Sr Eb _ Et] := restoreE K S R; have [Ek H] := all_backP Eb; split=> //.
  by apply: (@backP "transform_method").
by move=> k v I; have [u [Iu Eu]] := H k v I; exists u; split=> //; apply: backP.
Qed.

(** so every reconstruction of the restored object is that of the saved one *)
Theorem C46_reconstructions n m (o : obj C n) (o0 : obj C m) d o' inc :
  own_keys (ob_kw o) -> to_xarray o = Ok d -> from_xarray o0 d = Ok o' ->
  [/\ scale_reconstruction x (ob_c o') inc = scale_reconstruction x (ob_c o) inc,
      global_reconstruction x (ob_c o') inc = global_reconstruction x (ob_c o) inc
    & scale_separation x (ob_c o') inc = scale_separation x (ob_c o) inc].
Proof.
move=> K S R; have [[Ef Eb Ew _ _] _ _ _] := restoreE K S R.
have E : scale_reconstruction x (ob_c o') inc = scale_reconstruction x (ob_c o) inc.
  by rewrite /scale_reconstruction Ef Eb Ew.
by rewrite /global_reconstruction /scale_separation E Eb.
Qed.

(** What is saved can go to a file: no attribute is None, a set or a callable. *)
Theorem C46_storable n (o : obj C n) d a v : to_xarray o = Ok d -> In (a, v) (ds_attrs d) -> file_value v.
Proof.
have S u w : sanitize u = Ok w -> file_value w by case: u => [|b|q|s|i|l|l|l|[s|]] //= -[<-].
move=> /savedE[f [b [rk [t [l [[_ _ _ Et] [_ Es ->]]]]]]] /= [[_ <-]|]; first exact: S Et.
elim: (ob_kw o) l Es => [|[k u] kw IH] l /=; first by case=> <-.
case Eu: (sanitize u) => [w|] //; cbn [bind]; case Ek: (store kw) => [l'|] //; cbn [bind] => -[<-] /= [[_ <-]|].
  exact: S Eu.
exact: IH Ek.
Qed.

(** Restoring fails only because of eig_constraints, and then always. *)
Definition restorable (v : pyval) : bool :=
  match v with
  | VSet l | VList l | VTuple l => all hashable l
  | VStr s => ~~ String.eqb s "None"
  | VFun (Some _) => true
  | _ => false
  end.
Lemma back_ok k v w : sanitize v = Ok w -> if String.eqb k "eig_constraints" && ~~ restorable v then back k v = Err TypeError else exists u, back k v = Ok u.
Proof.
rewrite /back; case: (String.eqb k _); last by move=> ->; exists (unsanitize w).
case: v => [|b|q|s|a|l|l|l|[s|]] //=; try by [].
- by move=> _; case: String.eqb => //=; eexists.
- by move=> _; case: (all hashable l) => //=; eexists.
- by move=> _; case: (all hashable l) => //=; eexists.
- by move=> _; case: (all hashable l) => //=; eexists.
- by move=> _; eexists.
Qed.
Lemma all_back_ok kw l : store kw = Ok l ->
  if List.existsb (fun p => String.eqb p.1 "eig_constraints" && ~~ restorable p.2) kw then all_back kw = Err TypeError
  else exists vs, all_back kw = Ok vs.
Proof.
elim: kw l => [|[k v] kw IH] l /=; first by exists [::].
case Ev: (sanitize v) => [u|] //; cbn [bind]; case Es: (store kw) => [l'|] // _.
have := back_ok k Ev; case: (_ && _) => /= [-> //|[w ->]]; cbn [bind].
by have := IH _ Es; case: List.existsb => [-> //|[vs ->]]; eexists.
Qed.
Theorem C46_restorable n m (o : obj C n) (o0 : obj C m) d : own_keys (ob_kw o) -> to_xarray o = Ok d ->
  if List.existsb (fun p => String.eqb p.1 "eig_constraints" && ~~ restorable p.2) (ob_kw o)
  then from_xarray o0 d = Err TypeError else exists o', from_xarray o0 d = Ok o'.
Proof.
move=> [Nd Nm] /savedE[f [b [rk [t [l [[Ef Eb Er Et] [_ Es ->]]]]]]].
rewrite /from_xarray; cbn [ds_attrs]; rewrite /load -/load (_ : contains "pydmd_kwargs" _ = false) //.
rewrite (_ : contains "omega_transformation" _ = true) // (loadP _ Es Nm) //.
by have := all_back_ok Es; case: List.existsb => [->|[vs ->]] //; eexists.
Qed.
(** eig_constraints=None is BOPDMD's default: given explicitly, it is saved without complaint and can never be read back *)
Theorem C46_constraints_none_refuted n m (o : obj C n) (o0 : obj C m) d : own_keys (ob_kw o) ->
  In ("eig_constraints"%string, VNone) (ob_kw o) -> to_xarray o = Ok d -> from_xarray o0 d = Err TypeError.
Proof.
move=> K I S; have := C46_restorable o0 K S; rewrite (_ : List.existsb _ _ = true) //.
by apply/List.existsb_exists; eexists; split; first exact: I.
Qed.
(** a callable eig_constraints comes back as a set of letters *)
Theorem C46_constraints_callable_refuted n m (o : obj C n) (o0 : obj C m) d o' s : own_keys (ob_kw o) ->
  In ("eig_constraints"%string, VFun (Some s)) (ob_kw o) -> to_xarray o = Ok d -> from_xarray o0 d = Ok o' ->
  In ("eig_constraints"%string, VSet (chars ("Custom function " ++ s))) (ob_kw o').
Proof.
move=> K I S R; have [u [Iu /=]] := ra_kw (C46_round_trip K S R) I.
by move=> B; inversion B; subst.
Qed.

(** A restored object can be clustered again only if it was restored onto an object that had been fitted itself. *)
Theorem C46_recluster n m (o : obj C n) (o0 : obj C m) d o' k tr :
  own_keys (ob_kw o) -> to_xarray o = Ok d -> from_xarray o0 d = Ok o' -> ob_pre o0 = ob_pre o ->
  (let! c1 := recluster y o' k tr in Ok (c_bands c1)) = (let! c1 := recluster y o k tr in Ok (c_bands c1)).
Proof.
move=> K S R Ep; have [[Ef Eb Ew _ _] _ E0 _] := restoreE K S R.
rewrite /recluster Ef E0 Ep; case Eo: (c_fit (ob_c o)) => [f|] //; case: (ob_pre o) => // p.
by case: (_ == _) => //; rewrite /cluster_omega Ef Eo; case: (cluster_values _ _ _) => // -[].
Qed.
Theorem C46_recluster_refuted n (o : obj C n) d o' k tr :
  own_keys (ob_kw o) -> to_xarray o = Ok d -> from_xarray (blank C n) d = Ok o' -> recluster y o' k tr = Err TypeError.
Proof.
move=> K S R; have [[Ef Eb Ew _ _] _ E0 _] := restoreE K S R.
by have [f [b [rk [t [l [[Eo _ _ _] _]]]]]] := savedE S; rewrite /recluster Ef Eo E0.
Qed.
(** The keywords of a new object: those given, with their values; eig_sort "imag", proj_basis None and use_proj False unless given. *)
Theorem C46_keywords kw k v : List.NoDup (List.map fst (odflt [::] kw)) ->
  (In (k, v) (default_kw kw) <-> In (k, v) (odflt [::] kw) \/
     (forall v', ~ In (k, v') (odflt [::] kw)) /\
     In (k, v) [:: ("eig_sort", VStr "imag"); ("proj_basis", VNone); ("use_proj", VBool false)]%string).
Proof.
move=> Nd; set l := odflt [::] kw.
have HP q : List.existsb (fun p : string * pyval => String.eqb p.1 q) l = true <-> exists v', In (q, v') l.
  rewrite List.existsb_exists; split; first by move=> [[a b] [I /String.eqb_eq /= <-]]; exists b.
  by move=> [v' I]; exists (q, v'); split=> //=; rewrite String.eqb_refl.
have HN q : List.existsb (fun p : string * pyval => String.eqb p.1 q) l = false -> forall v', ~ In (q, v') l.
  by move=> E v' J; have : exists v1, In (q, v1) l; [exists v' | move=> /HP; rewrite E].
rewrite /default_kw -/l !List.in_app_iff; split.
  case=> [I|[|[|]]]; [by left| | |].
  - case: ifP => // E [[<- <-]|] //; right; split; [exact: HN E|by left].
  - case: ifP => // E [[<- <-]|] //; right; split; [exact: HN E|by right; left].
  - case: ifP => // E [[<- <-]|] //; right; split; [exact: HN E|by right; right; left].
case=> [I|[Nn [[Ek Ev]|[[Ek Ev]|[[Ek Ev]|[]]]]]]; first by left.
- right; left; rewrite -Ek in Nn *; case: ifP => [/HP[v' /Nn]//|_]; by left; rewrite Ev.
- right; right; left; rewrite -Ek in Nn *; case: ifP => [/HP[v' /Nn]//|_]; by left; rewrite Ev.
- right; right; right; rewrite -Ek in Nn *; case: ifP => [/HP[v' /Nn]//|_]; by left; rewrite Ev.
Qed.
End One.

Local Notation "# n" := (BinInt.Z.of_nat n) (at level 5, format "# n").

(** ** What can be saved *)
Section Saved.
Variable C : numClosedFieldType.
Variable np : numpy C.
Variable x : ext C.
Variable y : cext C.

Definition nameable (v : pyval) : Prop := v <> VFun None.
Lemma sanitizeP v : (exists u, sanitize v = Ok u) <-> nameable v.
Proof.
split; first by case: v => [|b|q|s|a|l|l|l|[s|]] // [].
by case: v => [|b|q|s|a|l|l|l|[s|]] //= _; eexists.
Qed.
Lemma storeP kw : (exists l, store kw = Ok l) <-> forall k v, In (k, v) kw -> nameable v.
Proof.
elim: kw => [|[k v] kw IH] /=; first by split=> // _; eexists.
split=> [[l]|H].
  case Ev: (sanitize v) => [u|] //; case Es: (store kw) => [l'|] // _ k' v' [[_ <-]|].
    by apply/sanitizeP; exists u.
  by apply IH; exists l'.
have [u ->] : exists u, sanitize v = Ok u by apply/sanitizeP; apply: (H k); left.
have [l ->] : exists l, store kw = Ok l by apply IH => k' v' I; apply: (H k'); right.
by eexists.
Qed.

Section Run.
Variables (fuel n : nat) (c : costs C n) (kw : kwargs C n) (sharp : C) (T : nat) (X : 'M[C]_(n, T)) (m : nat) (t : 'rV[C]_m).
Variables (w d : nat) (c1 : costs C n) (kw1 : kwargs C n) (N : nat) (tr : option trans) (c2 : costs C n).
Hypotheses (KM : kmeans_ok (y_kmeans y)) (AS : argsort_ok (y_argsort y)) (LG : is_log (y_log10 y)).
Hypotheses (w0 : (0 < w)%N) (d0 : (0 < d)%N) (R : rounds (y_fl y) #T #w).
Hypothesis F : fit np x y fuel c kw sharp X t #w #d = Some (c1, kw1, Ok tt).
Hypothesis Cl : cluster_omega y c1 true N tr = Ok c2.

Lemma fit_win : w_length (c_win c1) = Some #w /\ w_vars (c_win c1) = Some #n.
Proof.
move: F; rewrite /fit /fit_windows; case: negb => //; case: build_windows => // z.
case: ifP => // _; case: ifP => _; case: (@eqP _ m T) => // Em; case: (allocate _ _ _ _) => // -[[g kw2] pre];
  case: (initialization _ _) => // al; case: (all_windows _) => // ls; case: (cc_rank g) => // rk;
  by case: (fit_loop _ _ _ _ _ _ _ _ _ _ _ _ _ _ _) => [[rs|]|] // [<- _].
Qed.
Lemma run_facts : exists f b rk g, [/\ c_fit c2 = Some f, c_bands c2 = Some b, cc_rank (c_cfg c2) = Some rk,
    allocate np (c_cfg c) kw X = Ok (g, kw1, f_pre f) & cc_rank g = Some rk] /\
  shapes f b rk (c_win c2) = (arange_size rk == f_pre f).
Proof.
have [e [g [pre [al [rk [s1 [rs [[Al In Rk Lo Ec] Wi]]]]]]]] := fit_inv w0 d0 R F.
have [S _] := loop_stores Lo; have [Wl Wv] := fit_win; move: Cl; rewrite /cluster_omega /= Ec /=.
case: tr => [tr'|] //; rewrite [transform_omega _ _ _]/(transform_named _ _ _).
case E: (cluster_values _ _ _) => [[cent cls]|] //= [<-]; have [Sc _] := cluster_size KM AS LG E.
exists (Fitted pre rs), (Bands N (fun a b => nth 0%N cls (a * pre + b)%N) cent), rk, g; split; first by split.
move: Wl Wv; rewrite Ec /= /shapes /= => -> ->; rewrite Wi.1 Sc eqxx !BinInt.Z.eqb_refl.
by rewrite (_ : List.length (listed T w d) = size rs) ?BinInt.Z.eqb_refl ?andbT.
Qed.

(** After a fit and a clustering the object can be saved iff the number of columns of its arrays is svd_rank (rounded up),
    and every callable among its options has a name. *)
Theorem C46_saved : exists f rk, [/\ c_fit c2 = Some f, cc_rank (c_cfg c2) = Some rk & forall pre tv kwv,
  (exists ds, to_xarray (Obj c2 pre tv kwv) = Ok ds) <->
  [/\ arange_size rk = f_pre f, nameable tv & forall k v, In (k, v) kwv -> nameable v]].
Proof.
have [f [b [rk [g [[Ef Eb Er _ _] Sh]]]]] := run_facts; exists f, rk; split=> // pre tv kwv.
rewrite /to_xarray /= Ef Eb Er Sh; split=> [[ds]|[-> /sanitizeP[u ->] /storeP[l ->]]]; last by rewrite eqxx; eexists.
case Et: (sanitize tv) => [u|] //; case: eqP => // Ea; case Es: (store kwv) => [l|] // _.
by split=> //; [apply/sanitizeP; exists u | apply/storeP; exists l].
Qed.
(** With global_svd this is always so. *)
Theorem C46_saved_global pre tv kwv : cc_global (c_cfg c) -> nameable tv -> (forall k v, In (k, v) kwv -> nameable v) ->
  exists ds, to_xarray (Obj c2 pre tv kwv) = Ok ds.
Proof.
move=> G /sanitizeP[u Eu] /storeP[l El]; have [f [b [rk [g [[Ef Eb Er Al Rk] Sh]]]]] := run_facts.
rewrite /to_xarray /= Ef Eb Er Sh Eu El (_ : _ == _ = true); first by eexists.
move: Al Rk; rewrite /allocate; case: (cc_rank (c_cfg c)) => // r0; rewrite G => -[<- _ <-] [<-].
by rewrite /arange_size /= Qround.Qceiling_Z Znat.Nat2Z.id eqxx.
Qed.
(** Without it and with an automatic rank (svd_rank 0 or -1) it never is. *)
Theorem C46_automatic_rank_refuted r0 pre tv kwv : cc_global (c_cfg c) = false -> cc_rank (c_cfg c) = Some r0 ->
  Model_Utils.Qltb (inject_Z BinNums.Z0) (Model_Utils.rank_val r0) = false -> cc_max (c_cfg c) = None -> (0 < n)%N ->
  nameable tv -> to_xarray (Obj c2 pre tv kwv) = Err ValueError.
Proof.
move=> G R0 Neg M n0 /sanitizeP[u Eu]; have [f [b [rk [g [[Ef Eb Er Al Rk] Sh]]]]] := run_facts.
rewrite /to_xarray /= Ef Eb Er Sh Eu (_ : _ == _ = false) //.
move: Al Rk; rewrite /allocate R0 G Neg M => -[<- _ <-]; rewrite R0 => -[<-].
suff -> : arange_size r0 = 0%N by case: (n) n0.
move: Neg; rewrite /arange_size /Model_Utils.Qltb => /negbFE/Qle_bool_iff L.
have := Qround.Qceiling_resp_le _ _ L; rewrite Qround.Qceiling_Z.
by case: (Qround.Qceiling _) => // p /(_ erefl).
Qed.
End Run.
End Saved.

(** ** Concrete objects: one window, one eigenvalue, one band *)
Section Tiny.
Variable C : numClosedFieldType.
Definition tiny (kw : seq (string * pyval)) : obj C 1 :=
  Obj (Costs (CCfg (Some (Model_Utils.RInt #1)) true false false None false true None) (Wins (Some #1) (Some #1) (Some #1) (Some #1) (Some #1) (Some false))
         (Some (@Fitted C 1 1 1 [:: @WRes C 1 1 1 1 1 1 0 0])) (Some (Bands 1 (fun _ _ => 0%N) [:: 0]))) (Some 1%N) VNone kw.
Definition tiny_kw : seq (string * pyval) :=
  [:: ("eig_constraints", VSet [:: VStr "imag"; VStr "conjugate_pairs"]); ("eig_sort", VStr "imag"); ("proj_basis", VArr 7); ("tags", VSet [:: VNum 1])]%string.
Example C46_round_trip_case : exists d o', [/\ own_keys tiny_kw, to_xarray (tiny tiny_kw) = Ok d, from_xarray (blank C 3) d = Ok o' &
  ob_kw o' = [:: ("eig_constraints", VSet [:: VStr "imag"; VStr "conjugate_pairs"]); ("eig_sort", VStr "imag"); ("proj_basis", VArr 7);
                 ("tags", VList [:: VNum 1])]%string].
Proof.
do 2 eexists; split; [|reflexivity|reflexivity|reflexivity]; split; last by move=> k v; do 4 (case=> [[<- _] //|]).
by repeat constructor; move=> H; repeat (case: H => // H).
Qed.
(** the hypotheses of the refutations *)
Example C46_none_case : exists d kw, [/\ own_keys kw, In ("eig_constraints"%string, VNone) kw & to_xarray (tiny kw) = Ok d].
Proof.
eexists; exists [:: ("eig_constraints"%string, VNone)]; split; [|by left|reflexivity].
by split=> [|k v]; [repeat constructor | case=> [[<- _]|]].
Qed.
Example C46_callable_case : exists d kw o', [/\ own_keys kw, In ("eig_constraints"%string, VFun (Some "f"%string)) kw, to_xarray (tiny kw) = Ok d &
  from_xarray (blank C 1) d = Ok o'].
Proof.
eexists; exists [:: ("eig_constraints"%string, VFun (Some "f"%string))]; eexists; split; [|by left|reflexivity|reflexivity].
by split=> [|k v]; [repeat constructor | case=> [[<- _]|]].
Qed.
End Tiny.
Print Assumptions C46_round_trip.
Print Assumptions C46_keywords.
Print Assumptions C46_reconstructions.
Print Assumptions C46_restorable.
Print Assumptions C46_storable.
Print Assumptions C46_constraints_none_refuted.
Print Assumptions C46_constraints_callable_refuted.
Print Assumptions C46_recluster.
Print Assumptions C46_recluster_refuted.
Print Assumptions C46_saved.
Print Assumptions C46_saved_global.
Print Assumptions C46_automatic_rank_refuted.
