(** * C46: the two levels of Properties_MrCostsCase.v, saved to files and read back *)
From Coq Require Import QArith String Ascii List.
From mathcomp Require Import all_ssreflect all_fingroup all_algebra all_field.
From Verif Require Import Py LinAlg Model_Operator Model_BOP Model_CostsWin Model_Costs Model_MrCosts Model_CostsIO.
From Verif Require Import Spec_CostsIO Proofs_CostsIO Properties_CostsIO Properties_CostsFiles Properties_MrCostsCase.
From Verif Require Model_Utils Ideal Proofs_BOPJac Properties_CostsCase.
Set Implicit Arguments. Unset Strict Implicit. Unset Printing Implicit Defensive.
Import GRing.Theory Num.Theory.
Local Open Scope ring_scope.
Local Notation "# n" := (BinInt.Z.of_nat n) (at level 5, format "# n").

(** the keywords of that run, as the user gives them; the constraint is a function *)
Definition given_kw : seq (string * pyval) :=
  [:: ("eig_constraints", VFun (Some "spin")); ("eig_sort", VStr "auto"); ("varpro_opts_dict", VNone); ("use_proj", VBool true)]%string.
Definition saved_obj (C : numClosedFieldType) n (c : costs C n) : obj C n := Obj c (Some 2%N) (VStr "absolute") given_kw.
Lemma given_own : own_keys given_kw.
Proof.
split; last by move=> k v; do 4 (case=> [[<- _] //|]).
by repeat constructor; move=> H; repeat (case: H => // H).
Qed.
Lemma given_restorable v : In ("eig_constraints"%string, v) given_kw -> restorable v.
Proof. by do 4 (case=> [[] // <- //|]). Qed.

Example C46_case : let K := algCnumClosedField in let y := y1 K in
  exists np x (oo o1 o2 : mrcosts K 2) T (X : 'M_(2, T)) (t : 'rV_T) lev fs r res R,
  [/\ mr_fit np x y 0 oo 1 X t = Some (o1, Ok tt), mr_levels o1 = Some [seq ob_c o | o <- lev], [seq level_length o | o <- lev] = [:: #2; #3],
      to_netcdf [::] lev = Ok fs & from_netcdf fs [:: #3; #2] = Ok r] /\
  [/\ forall o, In o lev -> own_keys (ob_kw o), global_cluster_omega y o1 (Some 2%N) (Some Absolute) = (o2, Ok res), mr_reconstruction x o2 = Ok R &
      forall kw, exists o2', global_cluster_omega y (as_mr kw r) (Some 2%N) (Some Absolute) = (o2', Ok res) /\ mr_reconstruction x o2' = Ok R].
Proof.
move=> K y; have [rs1 [rs2 [cls1 [cls2 [o1 [F Eo [S1 S2] _ _]]]]]] := fit_case.
have [o1' [o2 [res [lev' [G [R [[F' _ _ Gc [_ HR]] _]]]]]]] := C58_case.
have E1 : o1' = o1 by move: F'; rewrite F => -[].
rewrite {}E1 {F'} in Gc; set c1 := Costs _ _ (Some (Fitted _ rs1)) _ in Eo; set c2 := Costs _ _ (Some (Fitted _ rs2)) _ in Eo.
pose lev := [:: saved_obj c1; saved_obj c2].
have [ds1 D1] : exists ds, to_xarray (saved_obj c1) = Ok ds.
  by rewrite /to_xarray /= /shapes /= S1 /=; eexists.
have [ds2 D2] : exists ds, to_xarray (saved_obj c2) = Ok ds.
  by rewrite /to_xarray /= /shapes /= S2 /=; eexists.
have [fs Hs] : exists fs, to_netcdf [::] lev = Ok fs by rewrite /lev /to_netcdf D1; cbn [bind]; rewrite D2; eexists.
have Le : [seq level_length o | o <- lev] = [:: #2; #3] by [].
have Ow o : In o lev -> own_keys (ob_kw o) by move=> [<-|[<-|//]]; exact: given_own.
have [r Hr] : exists r, from_netcdf fs [:: #3; #2] = Ok r.
  apply: (C46_readable Ow _ Hs) => //; first by move=> o v [<-|[<-|//]]; exact: given_restorable.
  by rewrite Le => z; rewrite !inE orbC.
have Gc2 : global_cluster_omega y o1 (Some 2%N) (Some Absolute) = (o2, Ok res) by rewrite -Gc Eo.
exists (Ideal.ideal K), (Proofs_BOPJac.ideal_ext (fun _ : K => 1)); do 2 eexists; exists o2; do 3 eexists; exists lev, fs, r, res, R; split.
  by split; [exact: F | rewrite Eo | exact: Le | exact: Hs | exact: Hr].
split=> // kw.
have [o2' [H1 _ _ H2]] := @C46_multires K (Proofs_BOPJac.ideal_ext (fun _ : K => 1)) y 2 lev fs [:: #3; #2] r kw o1 2 Absolute o2 res
  Ow erefl erefl Hs erefl Hr (f_equal (@mr_levels K 2) Eo) (f_equal (@mr_windows K 2) Eo) (f_equal (@mr_ndec K 2) Eo)
  (f_equal (@mr_omega K 2) Eo) (f_equal (@mr_ranks K 2) Eo) Gc2.
by exists o2'; rewrite H1 H2.
Qed.
(** svd_rank=-1 without global_svd: fitted, clustered, and not to be saved *)
Example C46_automatic_case : let K := algCnumClosedField in
  exists np x y kw T (X : 'M[K]_(2, T)) (t : 'rV[K]_T) c1 kw1 c2,
  [/\ fit np x y 0 (new_costs K 2 (Model_Utils.RInt (BinNums.Zneg BinNums.xH)) false) kw 1 X t #2 #1 = Some (c1, kw1, Ok tt),
      cluster_omega y c1 true 2 (Some Absolute) = Ok c2 & forall pre kwv, to_xarray (Obj c2 pre VNone kwv) = Err ValueError].
Proof.
move=> K; have [c1 [c2 [F Cl]]] := automatic_case; do 7 eexists; exists c1; eexists; exists c2; split; [exact: F|exact: Cl|].
move=> pre kwv; apply: (C46_automatic_rank_refuted _ _ _ _ _ _ F Cl _) => //.
- exact: Properties_CostsCase.near_cluster_ok.
- exact: Properties_CostsCase.idx_sort_ok.
- exact: Properties_CostsCase.y0_log.
- by left.
Qed.
Print Assumptions C46_case.
Print Assumptions C46_automatic_case.
