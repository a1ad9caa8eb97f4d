(** * C59: eigenvalue plots *)
From Coq Require Import List ZArith Bool Arith QArith Qround Lia Lqa.
From Verif Require Import Py Model_MrDMD Model_Plot Spec_MrDMD Spec_Plot Proofs_MrDMD_Tree Proofs_MrDMD Properties_MrDMD Properties_MrDMDWhole.
Import ListNotations.
Local Open Scope nat_scope.

Lemma fold_max l : forall a, let m := fold_left (fun m x => if Qle_bool x m then m else x) l a in
  (a <= m)%Q /\ (forall x, In x l -> (x <= m)%Q) /\ (m = a \/ In m l).
Proof.
  induction l as [|b l IH]; intros a m; simpl in *; [subst m; split; [lra|]; split; [tauto|auto]|].
  destruct (IH (if Qle_bool b a then a else b)) as (H1 & H2 & H3). subst m. cbn [fold_left].
  destruct (Qle_bool b a) eqn:B.
  - apply Qle_bool_iff in B. split; [auto|]. split; [|destruct H3; auto]. intros x [<-|Hx]; auto. lra.
  - assert (a < b)%Q by (apply Qnot_le_lt; intros C; apply Qle_bool_iff in C; congruence).
    split; [lra|]. split; [|destruct H3; auto]. intros x [<-|Hx]; auto.
Qed.
Lemma fold_min l : forall a, let m := fold_left (fun m x => if Qle_bool m x then m else x) l a in
  (m <= a)%Q /\ (forall x, In x l -> (m <= x)%Q) /\ (m = a \/ In m l).
Proof.
  induction l as [|b l IH]; intros a m; simpl in *; [subst m; split; [lra|]; split; [tauto|auto]|].
  destruct (IH (if Qle_bool a b then a else b)) as (H1 & H2 & H3). subst m. cbn [fold_left].
  destruct (Qle_bool a b) eqn:B.
  - apply Qle_bool_iff in B. split; [auto|]. split; [|destruct H3; auto]. intros x [<-|Hx]; auto. lra.
  - assert (b < a)%Q by (apply Qnot_le_lt; intros C; apply Qle_bool_iff in C; congruence).
    split; [lra|]. split; [|destruct H3; auto]. intros x [<-|Hx]; auto.
Qed.
Lemma py_maxP l : l <> [] -> exists m, py_max l = Ok m /\ In m l /\ forall x, In x l -> (x <= m)%Q.
Proof.
  destruct l as [|a l]; [congruence|]. intros _. eexists. split; [reflexivity|]. destruct (fold_max l a) as (H1 & H2 & H3).
  split; [destruct H3 as [H3|H3]; [left; symmetry; exact H3|right; exact H3]|]. intros x [<-|Hx]; auto.
Qed.
Lemma py_minP l : l <> [] -> exists m, py_min l = Ok m /\ In m l /\ forall x, In x l -> (m <= x)%Q.
Proof.
  destruct l as [|a l]; [congruence|]. intros _. eexists. split; [reflexivity|]. destruct (fold_min l a) as (H1 & H2 & H3).
  split; [destruct H3 as [H3|H3]; [left; symmetry; exact H3|right; exact H3]|]. intros x [<-|Hx]; auto.
Qed.

Lemma Qlt_bool_false a b : Qle_bool a b = false -> (b < a)%Q.
Proof. intros B. apply Qnot_le_lt. intros C. apply Qle_bool_iff in C. congruence. Qed.

(** the helper with any goal: the box never shrinks, keeps its centre, is not changed when it already has the aspect, and
    has the aspect afterwards *)
Theorem C59_ratio g l : (1 <= g)%Q -> (infx l < supx l)%Q -> (infy l < supy l)%Q ->
  exists l', enforce_ratio g l = Ok l' /\ aspect_at_most g l' /\
    (infx l' <= infx l /\ supx l <= supx l' /\ infy l' <= infy l /\ supy l <= supy l')%Q /\
    (supx l' + infx l' == supx l + infx l /\ supy l' + infy l' == supy l + infy l)%Q /\
    ((supx l - infx l < g * (supy l - infy l))%Q -> (supy l - infy l < g * (supx l - infx l))%Q -> l' = l) /\
    ((supx l' = supx l /\ infx l' = infx l) \/ (supy l' = supy l /\ infy l' = infy l)).
Proof.
  intros Hg Hx Hy. unfold enforce_ratio, aspect_at_most.
  replace (Qeq_bool (supx l - infx l) 0) with false
    by (symmetry; apply not_true_is_false; intros C; apply Qeq_bool_iff in C; lra).
  replace (Qeq_bool (supy l - infy l) 0) with false
    by (symmetry; apply not_true_is_false; intros C; apply Qeq_bool_iff in C; lra).
  replace (Qeq_bool g 0) with false by (symmetry; apply not_true_is_false; intros C; apply Qeq_bool_iff in C; lra).
  set (dx := (supx l - infx l)%Q). set (dy := (supy l - infy l)%Q).
  assert (Dx : (0 < dx)%Q) by (unfold dx; lra). assert (Dy : (0 < dy)%Q) by (unfold dy; lra).
  assert (Gx : (g * (dx / g) == dx)%Q) by (field; lra). assert (Gy : (g * (dy / g) == dy)%Q) by (field; lra).
  assert (Px : (0 < dx / g)%Q) by (apply Qlt_shift_div_l; lra). assert (Py : (0 < dy / g)%Q) by (apply Qlt_shift_div_l; lra).
  destruct (Qle_bool dy dx) eqn:B1, (Qle_bool dx dy) eqn:B2; cbn [negb];
    try (apply Qle_bool_iff in B1); try (apply Qle_bool_iff in B2);
    try (apply Qlt_bool_false in B1); try (apply Qlt_bool_false in B2); try (exfalso; lra).
  - assert (dx == dy)%Q by lra.
    exists l. split; [now destruct (Qle_bool g _)|].
    assert (dx <= g * dy)%Q by nra. assert (dy <= g * dx)%Q by nra.
    repeat split; auto; lra.
  - destruct (Qle_bool g (dx / dy)) eqn:B3.
    + apply Qle_bool_iff in B3. assert (Hr : (dx / dy * dy == dx)%Q) by (field; lra).
      assert (g * dy <= dx)%Q by nra. assert (dy <= dx / g)%Q by (apply Qle_shift_div_l; lra).
      eexists. split; [reflexivity|]. cbn [supx infx supy infy]. fold dx dy. set (q := (dx / g)%Q) in *. clearbody q.
      assert (E1 : (supy l + (q - dy) / 2 - (infy l - (q - dy) / 2) == q)%Q) by (unfold dy; field).
      assert (E2 : ((q - dy) / 2 == (q - dy) * (1#2))%Q) by field. assert (q <= dx)%Q by nra. assert (q <= g * dx)%Q by nra.
      repeat split; try rewrite E1; try rewrite E2; try lra; try (intros; exfalso; lra). left; auto.
    + apply Qlt_bool_false in B3. assert (Hr : (dx / dy * dy == dx)%Q) by (field; lra).
      assert (dx < g * dy)%Q by nra. assert (dy <= g * dx)%Q by nra.
      exists l. repeat split; auto; try lra. fold dx dy; lra.
  - destruct (Qle_bool g (dy / dx)) eqn:B3.
    + apply Qle_bool_iff in B3. assert (Hr : (dy / dx * dx == dy)%Q) by (field; lra).
      assert (g * dx <= dy)%Q by nra. assert (dx <= dy / g)%Q by (apply Qle_shift_div_l; lra).
      eexists. split; [reflexivity|]. cbn [supx infx supy infy]. fold dx dy. set (q := (dy / g)%Q) in *. clearbody q.
      assert (E1 : (supx l + (q - dx) / 2 - (infx l - (q - dx) / 2) == q)%Q) by (unfold dx; field).
      assert (E2 : ((q - dx) / 2 == (q - dx) * (1#2))%Q) by field. assert (q <= dy)%Q by nra. assert (q <= g * dy)%Q by nra.
      repeat split; try rewrite E1; try rewrite E2; try lra; try (intros; exfalso; lra). right; auto.
    + apply Qlt_bool_false in B3. assert (Hr : (dy / dx * dx == dy)%Q) by (field; lra).
      assert (dy < g * dx)%Q by nra. assert (dx <= g * dy)%Q by nra.
      exists l. repeat split; auto; try lra. fold dx dy; lra.
Qed.
Print Assumptions C59_ratio.

Lemma map_nonnil {A B} (f : A -> B) l : l <> [] -> map f l <> [].
Proof. destruct l; simpl; congruence. Qed.

Section Eigs.
Context {E : Type} (re im : E -> Q).

Lemma ceil_absP z : (0 <= ceil_abs re im z)%Z /\ (re z * re z + im z * im z <= inject_Z (ceil_abs re im z) * inject_Z (ceil_abs re im z))%Q
  /\ forall n, (0 <= n)%Z -> (re z * re z + im z * im z <= inject_Z n * inject_Z n)%Q -> (ceil_abs re im z <= n)%Z.
Proof.
  unfold ceil_abs. set (q := (re z * re z + im z * im z)%Q).
  assert (Hq : (0 <= q)%Q) by (unfold q; nra).
  split; [apply Z.sqrt_up_nonneg|]. rewrite <- inject_Z_mult.
  assert (Hc : (0 <= Qceiling q)%Z). { change 0%Z with (Qceiling 0). now apply Qceiling_resp_le. }
  split.
  - eapply Qle_trans; [apply Qle_ceiling|]. rewrite <- Zle_Qle.
    destruct (Z.eq_dec (Qceiling q) 0) as [E0|N0]; [rewrite E0; simpl; lia|].
    destruct (Z.sqrt_up_spec (Qceiling q)) as [_ H]; lia.
  - intros n Hn Hle. rewrite <- inject_Z_mult in Hle. apply Qceiling_resp_le in Hle. rewrite Qceiling_Z in Hle.
    rewrite <- (Z.sqrt_up_square n) by auto. now apply Z.sqrt_up_le_mono.
Qed.

Lemma max_ceilP eigs : eigs <> [] -> exists L, max_ceil re im eigs = Ok (inject_Z L) /\ (0 <= L)%Z /\
  (forall z, In z eigs -> re z * re z + im z * im z <= inject_Z L * inject_Z L)%Q /\
  forall n, (0 <= n)%Z -> (forall z, In z eigs -> re z * re z + im z * im z <= inject_Z n * inject_Z n)%Q -> (L <= n)%Z.
Proof.
  intros N. unfold max_ceil.
  destruct (py_maxP _ (map_nonnil (fun z => inject_Z (ceil_abs re im z)) eigs N)) as (m & -> & Hi & Hm).
  apply in_map_iff in Hi. destruct Hi as (z & <- & Hz). exists (ceil_abs re im z). split; [reflexivity|].
  destruct (ceil_absP z) as (P0 & P1 & P2). split; [exact P0|]. split.
  - intros y Hy. destruct (ceil_absP y) as (Q0 & Q1 & _). eapply Qle_trans; [exact Q1|].
    assert (H := Hm _ (in_map (fun z => inject_Z (ceil_abs re im z)) _ _ Hy)). rewrite <- !inject_Z_mult.
    rewrite <- Zle_Qle in *. nia.
  - intros n Hn Hle. apply P2; auto.
Qed.

(** Without narrow_view the axes are symmetric squares of integer half-width, the least one that contains the circles on
    which the eigenvalues lie; with narrow_view every eigenvalue is inside the box with 0.05 to spare on every side, one of
    the two axes is no longer than that requires, both are if their lengths differ by less than the factor 8, and they
    never differ by more. *)
Theorem C59_plot_eigs eigs : eigs <> [] ->
  (exists L, plot_eigs re im false (Some eigs) false = Ok (EPlot [eigs] [] (Lim (inject_Z L) (- inject_Z L) (inject_Z L) (- inject_Z L))) /\
     (0 <= L)%Z /\ (forall z, In z eigs -> inside (Lim (inject_Z L) (- inject_Z L) (inject_Z L) (- inject_Z L)) 0 (re z) (im z)) /\
     (forall z, In z eigs -> re z * re z + im z * im z <= inject_Z L * inject_Z L)%Q /\
     forall n, (0 <= n)%Z -> (forall z, In z eigs -> re z * re z + im z * im z <= inject_Z n * inject_Z n)%Q -> (L <= n)%Z) /\
  (exists l, plot_eigs re im false (Some eigs) true = Ok (EPlot [eigs] [] l) /\
     (forall z, In z eigs -> inside l (1#20) (re z) (im z)) /\ aspect_at_most 8 l /\
     (tight_x re l (1#20) eigs \/ tight_y im l (1#20) eigs) /\
     (forall bx by_, tight_x re bx (1#20) eigs -> tight_y im by_ (1#20) eigs ->
        (forall z, In z eigs -> infx bx <= re z - (1#20) /\ re z + (1#20) <= supx bx)%Q ->
        (forall z, In z eigs -> infy by_ <= im z - (1#20) /\ im z + (1#20) <= supy by_)%Q ->
        (supx bx - infx bx < 8 * (supy by_ - infy by_))%Q -> (supy by_ - infy by_ < 8 * (supx bx - infx bx))%Q ->
        tight_x re l (1#20) eigs /\ tight_y im l (1#20) eigs)).
Proof.
  intros N. split.
  - destruct (max_ceilP eigs N) as (L & EL & L0 & L1 & L2). exists L. unfold plot_eigs. rewrite EL. cbn [bind].
    split; [reflexivity|]. split; [exact L0|]. split; [|split; auto].
    intros z Hz. specialize (L1 z Hz). unfold inside; cbn [infx supx infy supy].
    assert (0 <= inject_Z L)%Q by (change 0%Q with (inject_Z 0); now rewrite <- Zle_Qle).
    repeat split; nra.
  - unfold plot_eigs, narrow_limits.
    destruct (py_maxP _ (map_nonnil re eigs N)) as (sx & -> & Isx & Msx). cbn [bind].
    destruct (py_minP _ (map_nonnil re eigs N)) as (ix & -> & Iix & Mix). cbn [bind].
    destruct (py_maxP _ (map_nonnil im eigs N)) as (sy & -> & Isy & Msy). cbn [bind].
    destruct (py_minP _ (map_nonnil im eigs N)) as (iy & -> & Iiy & Miy). cbn [bind].
    assert (Bx := Mix sx Isx). assert (By := Miy sy Isy).
    destruct (C59_ratio 8 (Lim (sx + (1 # 20)) (ix - (1 # 20)) (sy + (1 # 20)) (iy - (1 # 20)))) as (l & -> & Ha & Hg & _ & Hk & Ht);
      cbn [supx infx supy infy] in *; try lra.
    cbn [bind]. exists l. split; [reflexivity|].
    apply in_map_iff in Isx, Iix, Isy, Iiy.
    destruct Isx as (z1 & <- & I1), Iix as (z2 & <- & I2), Isy as (z3 & <- & I3), Iiy as (z4 & <- & I4).
    split; [|split; [exact Ha|split]].
    + intros z Hz. assert (Z1 := Msx _ (in_map re _ _ Hz)). assert (Z2 := Mix _ (in_map re _ _ Hz)).
      assert (Z3 := Msy _ (in_map im _ _ Hz)). assert (Z4 := Miy _ (in_map im _ _ Hz)). unfold inside. repeat split; lra.
    + destruct Ht as [[E1 E2]|[E1 E2]]; [left; exists z1, z2|right; exists z3, z4]; rewrite E1, E2; repeat split; auto; lra.
    + intros bx by_ (a & b & Ia & Ib & Ea & Eb) (c & d & Ic & Id & Ec & Ed) Cx Cy H1 H2.
      assert (A1 := Msx _ (in_map re _ _ Ia)). assert (A2 := Mix _ (in_map re _ _ Ib)).
      assert (A3 := Msy _ (in_map im _ _ Ic)). assert (A4 := Miy _ (in_map im _ _ Id)).
      assert (K1 := Cx _ I1). assert (K2 := Cx _ I2). assert (K3 := Cy _ I3). assert (K4 := Cy _ I4).
      rewrite Hk by lra. split; [exists z1, z2|exists z3, z4]; cbn [supx infx supy infy]; repeat split; auto; lra.
Qed.

(** Nothing to show is an error, and an MrDMD is sent elsewhere. *)
Theorem C59_errors narrow eigs :
  plot_eigs re im true eigs narrow = Err ValueError /\ plot_eigs re im false None narrow = Err ValueError /\
  plot_eigs re im false (Some []) narrow = Err ValueError.
Proof. repeat split. destruct narrow; reflexivity. Qed.
End Eigs.
Print Assumptions C59_plot_eigs.
Print Assumptions C59_errors.

Section Mr.
Context {E : Type} (re im : E -> Q) (W : vspace) (cfg : Type) (leaf_fit : cfg -> list (vs_V W) -> result (list (mode W E))) (cycles : E -> Q).

Lemma eigs_levels (HW : vspace_laws W) (m m' : mrdmd W E cfg) X R :
  leaf_fit_ok leaf_fit -> reachable leaf_fit cycles m -> mr_fit W E cfg leaf_fit cycles m X = (m', Ok R) ->
  exists pts, over_levels (fun l => partial_eigs W E cfg (mr_tree W E cfg m') l None) (seq 0 (mr_max_level W E cfg m' + 1)) = Ok pts /\
    mr_eigs W E cfg m' = Ok (concat pts) /\ bt_levels (mr_tree W E cfg m') = seq 0 (mr_max_level W E cfg m' + 1).
Proof.
  intros HO HI H. destruct (fit_nodes W E cfg leaf_fit cycles HW m m' X R HO HI H) as (nss & En & Fn).
  destruct (C23_whole W E cfg leaf_fit cycles HW m m' X R HO HI H) as (ns & ms & D & Ens & -> & _ & Ee & _).
  assert (HI' := HI). apply reachable_inv in HI'. pose proof (fit_inv W E cfg leaf_fit cycles m X HI') as (Inv & _).
  rewrite H in Inv. cbn [fst] in Inv. destruct Inv as (Wt & Dt & _).
  assert (Fl := over_levels_Forall _ _ _ _ En Fn).
  assert (Eb : map_nodes (mr_tree W E cfg m') (fun a => a) (bt_nodes (mr_tree W E cfg m')) = Ok (concat nss)).
  { unfold bt_nodes, bt_levels. apply map_nodes_flat. rewrite Dt. exact En. }
  rewrite Eb in Ens. inversion Ens; subst ns.
  exists (map (fun ns => concat (map (node_eigs W E cfg) ns)) nss). split; [|split].
  - eapply over_levels_map; [exact En|]. intros i x Hi Hx. destruct (Fl i Hi) as (y & Hy & Ny & _).
    cbn beta in Hx, Hy. rewrite Hy in Hx; inversion Hx; subst y. unfold partial_eigs.
    rewrite (map_nodes_map W E cfg _ _ _ x Hy). cbn [bind]. now rewrite concatenate_ns.
  - rewrite Ee. f_equal. clear. unfold node_eigs. induction nss as [|ns nss IH]; simpl; auto.
    rewrite map_app, concat_app, map_app, IH. f_equal. clear. induction ns as [|a ns IH]; simpl; auto. now rewrite map_app, IH.
  - unfold bt_levels. now rewrite Dt.
Qed.

(** plot_eigs_mrdmd after a fit.  Without a level: one series per level, in order and labelled with it, together all the
    eigenvalues, all of them inside the axes.  With a level other than 0: only that level (or node), inside the axes. *)
Theorem C59_mrdmd (HW : vspace_laws W) (m m' : mrdmd W E cfg) X R :
  leaf_fit_ok leaf_fit -> reachable leaf_fit cycles m -> mr_fit W E cfg leaf_fit cycles m X = (m', Ok R) ->
  (forall node, (exists e, mr_eigs W E cfg m' = Ok e /\ e <> []) -> exists p, plot_eigs_mrdmd re im m' None node = Ok p /\
     mr_eigs W E cfg m' = Ok (concat (ep_series p)) /\
     over_levels (fun l => partial_eigs W E cfg (mr_tree W E cfg m') l None) (ep_labels p) = Ok (ep_series p) /\
     ep_labels p = seq 0 (mr_max_level W E cfg m' + 1) /\
     Forall (Forall (fun z => inside (ep_limits p) 0 (re z) (im z))) (ep_series p)) /\
  (forall l node e, 0 < l -> partial_eigs W E cfg (mr_tree W E cfg m') l node = Ok e -> e <> [] ->
     exists p, plot_eigs_mrdmd re im m' (Some l) node = Ok p /\ ep_series p = [e] /\ ep_labels p = [l] /\
     Forall (Forall (fun z => inside (ep_limits p) 0 (re z) (im z))) (ep_series p)).
Proof.
  intros HO HI H. destruct (eigs_levels HW m m' X R HO HI H) as (pts & Ep & Ee & El).
  assert (IN : forall L eigs, (0 <= L)%Z -> (forall z, In z eigs -> re z * re z + im z * im z <= inject_Z L * inject_Z L)%Q ->
    Forall (fun z => inside (Lim (inject_Z L) (- inject_Z L) (inject_Z L) (- inject_Z L)) 0 (re z) (im z)) eigs).
  { intros L eigs L0 HL. apply Forall_forall. intros z Hz. specialize (HL z Hz). unfold inside; cbn [infx supx infy supy].
    assert (0 <= inject_Z L)%Q by (change 0%Q with (inject_Z 0); now rewrite <- Zle_Qle). repeat split; nra. }
  split.
  - intros node (e & He & Ne). rewrite Ee in He. inversion He; subst e.
    destruct (max_ceilP re im (concat pts) Ne) as (L & EL & L0 & L1 & _).
    unfold plot_eigs_mrdmd. rewrite Ee. cbn [bind]. rewrite El, Ep. cbn [bind]. rewrite EL. cbn [bind].
    eexists. split; [reflexivity|]. cbn [ep_series ep_labels ep_limits].
    assert (Hlen : List.length pts = mr_max_level W E cfg m' + 1).
    { clear - Ep. revert Ep. generalize (mr_max_level W E cfg m' + 1) as n. intros n. rewrite <- (seq_length n 0) at 2. generalize (seq 0 n).
      intros ls; revert pts; induction ls as [|i ls IH]; intros pts Ep; simpl in *; [inversion Ep; reflexivity|].
      destruct (partial_eigs _ _ _ _ i None); [|discriminate]. cbn [bind] in Ep.
      destruct (over_levels _ ls) as [r|]; [|discriminate]. cbn [bind] in Ep. inversion Ep; subst. simpl. f_equal. now apply IH. }
    rewrite Hlen. repeat split; auto.
    assert (F := IN L (concat pts) L0 L1). clear - F. induction pts as [|x pts IH]; simpl in *; auto.
    apply Forall_app in F. destruct F. auto.
  - intros l node e Hl He Ne. destruct l as [|l]; [lia|].
    destruct (max_ceilP re im e Ne) as (L & EL & L0 & L1 & _).
    unfold plot_eigs_mrdmd. rewrite Ee. cbn [bind]. rewrite He. cbn [bind]. rewrite EL. cbn [bind].
    eexists. split; [reflexivity|]. cbn [ep_series ep_labels ep_limits]. repeat split; auto.
Qed.
End Mr.
Print Assumptions C59_mrdmd.

(** level=0 does not select the root: it counts as no level. *)
Theorem C59_level_zero_refuted : exists p, plot_eigs_mrdmd (fun z : Q => z) (fun _ => 0%Q) ex_m1 (Some 0) None = Ok p /\
  plot_eigs_mrdmd (fun z : Q => z) (fun _ => 0%Q) ex_m1 (Some 0) None = plot_eigs_mrdmd (fun z : Q => z) (fun _ => 0%Q) ex_m1 None None /\
  List.length (concat (ep_series p)) = 7 /\ partial_eigs exW Q Z (mr_tree exW Q Z ex_m1) 0 None = Ok [(1 # 100)%Q].
Proof. eexists. vm_compute. repeat split. Qed.
Print Assumptions C59_level_zero_refuted.

(** three eigenvalues: in the square of half-width 2; in the narrow view the height 0.1 is stretched to an eighth of 2.6 *)
Definition ex_eigs : list (Q * Q) := [(1#2, 0); (-(3#2), 0); (1, 0)]%Q.
Example C59_plot_ex : exists l, plot_eigs fst snd false (Some ex_eigs) false = Ok (EPlot [ex_eigs] [] (Lim 2 (-2) 2 (-2))) /\
  plot_eigs fst snd false (Some ex_eigs) true = Ok (EPlot [ex_eigs] [] l) /\
  (supx l == 21#20 /\ infx l == -(31#20) /\ supy l == 13#80 /\ infy l == -(13#80))%Q.
Proof. eexists. vm_compute. repeat split. Qed.
Example C59_mrdmd_ex : exists p, plot_eigs_mrdmd (fun z : Q => z) (fun _ => 0%Q) ex_m1 None None = Ok p /\
  map (@List.length Q) (ep_series p) = [1; 2; 4] /\ ep_labels p = [0; 1; 2].
Proof. eexists. vm_compute. repeat split. Qed.
