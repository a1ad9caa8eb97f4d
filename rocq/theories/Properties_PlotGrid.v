(** * C60: plots of modes and snapshots on a grid *)
From Coq Require Import List ZArith Bool Arith QArith Lia.
From Coq Require String DecimalString DecimalZ DecimalPos.
From Verif Require Import Py Model_Plot Spec_Plot.
Import ListNotations.
Local Open Scope nat_scope.

Section Grid.
Context {T : Type}.

Lemma nth_take (v : list T) ps : Forall (fun p => p < length v) ps ->
  forall k, nth_error (take_at v ps) k = match nth_error ps k with Some p => nth_error v p | None => None end.
Proof.
  induction 1 as [|p ps Hp HF IH]; intros k; cbn [take_at flat_map]; [now destruct k|].
  fold (take_at v ps). destruct (nth_error v p) as [a|] eqn:Ea; [|apply nth_error_None in Ea; lia].
  destruct k as [|k]; cbn [nth_error app]; [now rewrite Ea|]. apply IH.
Qed.
Lemma nth_seq n k : nth_error (seq 0 n) k = if k <? n then Some k else None.
Proof.
  destruct (k <? n) eqn:B.
  - apply Nat.ltb_lt in B. rewrite (nth_error_nth' (seq 0 n) 0) by now rewrite seq_length. now rewrite seq_nth.
  - apply Nat.ltb_ge in B. apply nth_error_None. now rewrite seq_length.
Qed.
Lemma nth_combine {A B} (l : list A) (r : list B) k a b :
  nth_error (combine l r) k = Some (a, b) <-> nth_error l k = Some a /\ nth_error r k = Some b.
Proof.
  revert r k; induction l as [|x l IH]; intros [|y r] k; simpl; destruct k; simpl; split; try intros [? ?]; try discriminate.
  - intros H; inversion H; auto.
  - congruence.
  - apply IH.
  - intros. now apply IH.
Qed.

(** position in the vector of the value at row p and column q *)
Definition pos (o : order) (ny nx p q : nat) : nat := match o with OrderF => p + q * ny | _ => p * nx + q end.
Lemma pos_lt o ny nx p q : p < ny -> q < nx -> pos o ny nx p q < ny * nx.
Proof. intros Hp Hq. destruct o; simpl; nia. Qed.

Lemma reshape2_spec o ny nx (v : list T) a : reshape2 o ny nx v = Ok a ->
  length v = ny * nx /\ length a = ny /\
  forall p r, nth_error a p = Some r <-> p < ny /\ length r = nx /\ forall q, q < nx -> nth_error r q = nth_error v (pos o ny nx p q).
Proof.
  unfold reshape2. destruct (length v =? ny * nx) eqn:B; [|discriminate]. apply Nat.eqb_eq in B. intros H.
  inversion H; subst a; clear H. split; [exact B|]. split; [now rewrite map_length, seq_length|].
  set (row := fun p => take_at v (map (fun q => match o with OrderF => p + q * ny | _ => p * nx + q end) (seq 0 nx))).
  assert (R : forall p, p < ny -> forall q, nth_error (row p) q = if q <? nx then nth_error v (pos o ny nx p q) else None).
  { intros p Hp q. unfold row. rewrite nth_take.
    - rewrite nth_error_map, nth_seq. destruct (q <? nx); [|reflexivity]. now destruct o.
    - apply Forall_map. apply Forall_forall. intros k Hk. apply in_seq in Hk.
      assert (G := pos_lt o ny nx p k Hp). rewrite B. destruct o; simpl in G; apply G; lia. }
  assert (RL : forall p, p < ny -> length (row p) = nx).
  { intros p Hp. assert (L1 : ~ nx < length (row p)).
    { intros C. apply nth_error_Some in C. rewrite (R p Hp) in C. rewrite Nat.ltb_irrefl in C. congruence. }
    destruct (Nat.eq_dec (length (row p)) nx) as [|Ne]; auto. exfalso.
    assert (C : nth_error (row p) (length (row p)) = None) by (apply nth_error_None; lia).
    rewrite (R p Hp) in C. assert (D : length (row p) < nx) by lia. apply Nat.ltb_lt in D. rewrite D in C. apply Nat.ltb_lt in D.
    apply nth_error_None in C. assert (G := pos_lt o ny nx p _ Hp D). lia. }
  intros p r. rewrite nth_error_map, nth_seq. fold row. destruct (p <? ny) eqn:P; cbn [option_map].
  - apply Nat.ltb_lt in P. split.
    + intros H; inversion H; subst r. split; [auto|]. split; [auto|]. intros q Hq. rewrite (R p P).
      apply Nat.ltb_lt in Hq. now rewrite Hq.
    + intros (_ & Hl & Hr). f_equal.
      assert (X : forall q, nth_error (row p) q = nth_error r q).
      { intros q. rewrite (R p P). destruct (q <? nx) eqn:Q; [apply Nat.ltb_lt in Q; symmetry; auto|].
        apply Nat.ltb_ge in Q. symmetry. apply nth_error_None. lia. }
      clear - X. revert r X. generalize (row p). induction l as [|x l IH]; intros [|y r] X; auto.
      * specialize (X 0); discriminate.
      * specialize (X 0); discriminate.
      * f_equal; [specialize (X 0); inversion X; auto|]. apply IH. intros q. exact (X (S q)).
  - apply Nat.ltb_ge in P. split; [discriminate|]. intros [? _]; lia.
Qed.

Lemma In_nth {A} (l : list A) a : In a l <-> exists k, nth_error l k = Some a.
Proof. split; [apply In_nth_error|intros [k H]; eapply nth_error_In; eauto]. Qed.

Lemma shows_spec o (xs ys : list Q) (v : list T) a :
  reshape2 o (length ys) (length xs) v = Ok a ->
  forall x y w, shows (map (fun gr => combine (fst gr) (snd gr)) (combine (meshgrid xs ys) a)) x y w <->
    exists p q, nth_error ys p = Some y /\ nth_error xs q = Some x /\ nth_error v (pos o (length ys) (length xs) p q) = Some w.
Proof.
  intros H x y w. destruct (reshape2_spec _ _ _ _ _ H) as (Lv & La & Hr). unfold shows. split.
  - intros (row & Hi & Hw). apply in_map_iff in Hi. destruct Hi as ([g r] & <- & Hi). cbn [fst snd] in Hw.
    apply In_nth in Hi. destruct Hi as (p & Hp). apply nth_combine in Hp. destruct Hp as [Hg Hp].
    apply In_nth in Hw. destruct Hw as (q & Hq). apply nth_combine in Hq. destruct Hq as [Hx Hw].
    unfold meshgrid in Hg. rewrite nth_error_map in Hg. destruct (nth_error ys p) as [b|] eqn:Ey; [|discriminate].
    inversion Hg; subst g. rewrite nth_error_map in Hx. destruct (nth_error xs q) as [c|] eqn:Ex; [|discriminate].
    inversion Hx; subst. exists p, q. repeat split; auto. apply Hr in Hp. destruct Hp as (_ & _ & Hp). rewrite <- Hp; auto.
    apply nth_error_Some. congruence.
  - intros (p & q & Ey & Ex & Ew).
    assert (Pp : p < length ys) by (apply nth_error_Some; congruence).
    assert (Pq : q < length xs) by (apply nth_error_Some; congruence).
    destruct (nth_error a p) as [r|] eqn:Ea; [|apply nth_error_None in Ea; lia].
    exists (combine (map (fun a => (a, y)) xs) r). split.
    + apply in_map_iff. exists (map (fun a => (a, y)) xs, r). split; auto. apply In_nth. exists p. apply nth_combine.
      split; auto. unfold meshgrid. rewrite nth_error_map, Ey. reflexivity.
    + apply In_nth. exists q. apply nth_combine. rewrite nth_error_map, Ex. split; auto.
      apply Hr in Ea. destruct Ea as (_ & _ & ->); auto.
Qed.

Lemma figures_spec o grid ny nx (cols : list (list T)) idx out : figures o grid ny nx cols idx = Ok out ->
  map fst out = idx /\ forall i f, In (i, f) out -> exists v a, py_nth cols i = Ok v /\ reshape2 o ny nx v = Ok a /\
    f = map (fun gr => combine (fst gr) (snd gr)) (combine grid a).
Proof.
  revert out; induction idx as [|i idx IH]; intros out H; cbn [figures] in H; [inversion H; simpl; split; [auto|tauto]|].
  destruct (py_nth cols i) as [v|] eqn:Ev; [|discriminate]. cbn [bind] in H.
  destruct (reshape2 o ny nx v) as [a|] eqn:Ea; [|discriminate]. cbn [bind] in H.
  destruct (figures o grid ny nx cols idx) as [r|] eqn:Er; [|discriminate]. cbn [bind] in H. inversion H; subst.
  destruct (IH r eq_refl) as [I1 I2]. split; [simpl; now f_equal|].
  intros j f [Hj|Hj]; [inversion Hj; subst; eauto|eauto].
Qed.
Lemma figures_ok o grid ny nx (cols : list (list T)) idx :
  (forall i, In i idx -> exists v a, py_nth cols i = Ok v /\ reshape2 o ny nx v = Ok a) -> exists out, figures o grid ny nx cols idx = Ok out.
Proof.
  induction idx as [|i idx IH]; intros H; cbn [figures]; [eauto|].
  destruct (H i) as (v & a & -> & Ea); [left; auto|]. cbn [bind]. rewrite Ea. cbn [bind].
  destruct IH as (r & ->); [intros; apply H; right; auto|]. cbn [bind]. eauto.
Qed.

Lemma nth_concat (S : list (list T)) b : Forall (fun r => length r = b) S -> forall i j, j < b ->
  nth_error (concat S) (i * b + j) = match nth_error S i with Some r => nth_error r j | None => None end.
Proof.
  induction 1 as [|r S Hr HF IH]; intros i j Hj; simpl; [now destruct i, (_ + j)|].
  destruct i as [|i]; simpl.
  - rewrite nth_error_app1 by lia. reflexivity.
  - rewrite nth_error_app2 by lia. rewrite Hr. replace (b + i * b + j - b) with (i * b + j) by lia. now apply IH.
Qed.
Lemma length_concat (S : list (list T)) a b : array a b S -> length (concat S) = a * b.
Proof.
  intros [<- H]. induction H as [|r S Hr HF IH]; simpl; auto. rewrite app_length. simpl in IH. lia.
Qed.
Lemma nth_tick n k x : nth_error (map (fun k => inject_Z (Z.of_nat k)) (seq 0 n)) k = Some x <-> k < n /\ x = tick k.
Proof.
  rewrite nth_error_map, nth_seq. destruct (k <? n) eqn:B; cbn [option_map].
  - apply Nat.ltb_lt in B. split; [intros H; inversion H; auto|]. intros [_ ->]. reflexivity.
  - apply Nat.ltb_ge in B. split; [discriminate|]. intros [? _]; lia.
Qed.
Lemma entry_lt a b S i j (w : T) : array a b S -> entry S i j w -> i < a /\ j < b.
Proof.
  intros [<- HF] (r & Hr & Hw). split; [apply nth_error_Some; congruence|].
  rewrite Forall_forall in HF. rewrite <- (HF r) by (eapply nth_error_In; eauto). apply nth_error_Some. congruence.
Qed.
Lemma entry_concat a b S i j (w : T) : array a b S -> i < a -> j < b -> (entry S i j w <-> nth_error (concat S) (i * b + j) = Some w).
Proof.
  intros [La HF] Hi Hj. rewrite (nth_concat S b HF i j Hj). unfold entry. split.
  - intros (r & -> & H). exact H.
  - destruct (nth_error S i) as [r|]; [eauto|discriminate].
Qed.

(** The figures: one per requested column, in the requested order; the default is every column once; a column that does
    not exist or does not have the size of the grid is an error. *)
Theorem C60_figures (cols : list (list T)) shape own xy o index out :
  plot_2D (Some cols) shape own xy o index = Ok out ->
  map fst out = (match index with AllIdx => map Z.of_nat (seq 0 (length cols)) | OneIdx i => [i] | SeqIdx l => l end) /\
  forall i f, In (i, f) out -> (- Z.of_nat (length cols) <= i < Z.of_nat (length cols))%Z.
Proof.
  unfold plot_2D. destruct (match xy with Some a => Ok a | None => _ end) as [axes|]; [|discriminate]. cbn [bind].
  intros H. apply figures_spec in H. destruct H as [H1 H2]. split; [exact H1|].
  intros i f Hi. destruct (H2 i f Hi) as (v & a & Hv & _). revert Hv. unfold py_nth.
  destruct (i <? 0)%Z eqn:B1; destruct ((_ <? 0) || _)%Z eqn:B2; try discriminate; intros _;
    apply orb_false_iff in B2; destruct B2 as [B2 B3]; apply Z.ltb_ge in B2; apply Z.leb_gt in B3;
    [apply Z.ltb_lt in B1|apply Z.ltb_ge in B1]; lia.
Qed.

(** [column cols i S]: position i of the modes (or snapshots) is the array S, flattened as Snapshots does *)
Definition column (cols : list (list T)) (i : Z) (S : list (list T)) : Prop := py_nth cols i = Ok (concat S).

(** order="F" and the object's own shape: the value S[i, j] is at x = i, y = j, and nothing else is drawn. *)
Theorem C60_fortran (cols : list (list T)) a b S i shape own : array a b S -> column cols i S ->
  match shape with Some s => s = [a; b] | None => own = Some [a; b] end ->
  exists f, plot_2D (Some cols) shape own None OrderF (OneIdx i) = Ok [(i, f)] /\
    forall x y w, shows f x y w <-> exists k l, entry S k l w /\ x = tick k /\ y = tick l.
Proof.
  intros HS HC Hsh. unfold plot_2D. replace (match shape with None => own | s => s end) with (Some [a; b]) by (destruct shape; congruence).
  cbn [bind]. cbv zeta. cbn [fst snd]. rewrite !map_length, !seq_length.
  set (xs := map _ (seq 0 a)). set (ys := map _ (seq 0 b)).
  assert (Lx : length xs = a) by (unfold xs; now rewrite map_length, seq_length).
  assert (Ly : length ys = b) by (unfold ys; now rewrite map_length, seq_length).
  cbn [figures]. rewrite HC. cbn [bind].
  assert (exists r, reshape2 OrderF b a (concat S) = Ok r) as [r Er].
  { unfold reshape2. rewrite (length_concat S a b HS), (Nat.mul_comm a b), Nat.eqb_refl. eauto. }
  rewrite Er. cbn [bind]. eexists. split; [reflexivity|]. intros x y w.
  rewrite <- Lx, <- Ly in Er. rewrite (shows_spec _ xs ys _ _ Er). rewrite Lx, Ly. unfold pos. split.
  - intros (p & q & Hy & Hx & Hw). apply nth_tick in Hx, Hy. destruct Hx as [Hq ->], Hy as [Hp ->].
    exists q, p. split; [|auto]. apply (entry_concat a b S q p w HS); auto. rewrite Nat.add_comm. exact Hw.
  - intros (k & l & He & -> & ->). destruct (entry_lt a b S k l w HS He) as [Hk Hl].
    exists l, k. split; [now apply nth_tick|]. split; [now apply nth_tick|].
    rewrite Nat.add_comm. now apply (entry_concat a b S k l w HS).
Qed.

(** order="C" with axes given by the user, x along the second axis of the snapshot and y along the first: the value
    S[i, j] is at (x[j], y[i]), and nothing else is drawn. *)
Theorem C60_axes (cols : list (list T)) a b S i xs ys shape own : array a b S -> column cols i S ->
  length xs = b -> length ys = a ->
  exists f, plot_2D (Some cols) shape own (Some (xs, ys)) OrderC (OneIdx i) = Ok [(i, f)] /\
    forall x y w, shows f x y w <-> exists k l, entry S k l w /\ nth_error xs l = Some x /\ nth_error ys k = Some y.
Proof.
  intros HS HC Lx Ly. cbn [plot_2D bind]. cbv zeta. cbn [fst snd].
  cbn [figures]. rewrite HC. cbn [bind].
  assert (exists r, reshape2 OrderC (length ys) (length xs) (concat S) = Ok r) as [r Er].
  { unfold reshape2. rewrite (length_concat S a b HS), Lx, Ly, Nat.eqb_refl. eauto. }
  rewrite Er. cbn [bind]. eexists. split; [reflexivity|]. intros x y w.
  rewrite (shows_spec _ xs ys _ _ Er). unfold pos. rewrite Lx. split.
  - intros (p & q & Hy & Hx & Hw). exists p, q. split; [|auto]. apply (entry_concat a b S p q w HS); auto.
    + rewrite <- Ly. apply nth_error_Some. congruence.
    + rewrite <- Lx. apply nth_error_Some. congruence.
  - intros (k & l & He & Hx & Hy). destruct (entry_lt a b S k l w HS He) as [Hk Hl].
    exists k, l. split; auto. split; auto. now apply (entry_concat a b S k l w HS).
Qed.

(** order="C", the default, with the object's own shape (a, b): the value at x = q, y = p is the entry number p*a + q of the
    snapshot in C order.  That is S[p, q] when a = b. *)
Theorem C60_default (cols : list (list T)) a b S i shape own : array a b S -> column cols i S ->
  match shape with Some s => s = [a; b] | None => own = Some [a; b] end ->
  exists f, plot_2D (Some cols) shape own None OrderC (OneIdx i) = Ok [(i, f)] /\
    (forall x y w, shows f x y w <->
       exists p q, p < b /\ q < a /\ x = tick q /\ y = tick p /\ entry S ((p * a + q) / b) ((p * a + q) mod b) w) /\
    (a = b -> forall x y w, shows f x y w <-> exists k l, entry S k l w /\ x = tick l /\ y = tick k).
Proof.
  intros HS HC Hsh. unfold plot_2D. replace (match shape with None => own | s => s end) with (Some [a; b]) by (destruct shape; congruence).
  cbn [bind]. cbv zeta. cbn [fst snd]. rewrite !map_length, !seq_length.
  set (xs := map _ (seq 0 a)). set (ys := map _ (seq 0 b)).
  assert (Lx : length xs = a) by (unfold xs; now rewrite map_length, seq_length).
  assert (Ly : length ys = b) by (unfold ys; now rewrite map_length, seq_length).
  cbn [figures]. rewrite HC. cbn [bind].
  assert (exists r, reshape2 OrderC b a (concat S) = Ok r) as [r Er].
  { unfold reshape2. rewrite (length_concat S a b HS), (Nat.mul_comm a b), Nat.eqb_refl. eauto. }
  rewrite Er. cbn [bind]. eexists. split; [reflexivity|].
  assert (G : forall x y w, shows (map (fun gr => combine (fst gr) (snd gr)) (combine (meshgrid xs ys) r)) x y w <->
       exists p q, p < b /\ q < a /\ x = tick q /\ y = tick p /\ nth_error (concat S) (p * a + q) = Some w).
  { intros x y w. rewrite <- Lx, <- Ly in Er. rewrite (shows_spec _ xs ys _ _ Er). unfold pos. rewrite Lx. split.
    - intros (p & q & Hy & Hx & Hw). apply nth_tick in Hx, Hy. destruct Hx as [Hq ->], Hy as [Hp ->]. exists p, q. auto.
    - intros (p & q & Hp & Hq & -> & -> & Hw). exists p, q. split; [now apply nth_tick|]. split; [now apply nth_tick|]. exact Hw. }
  split.
  - intros x y w. rewrite G. split; intros (p & q & Hp & Hq & Ex & Ey & Hw); exists p, q; do 4 (split; [assumption|]).
    + apply (entry_concat a b S _ _ w HS).
      * apply Nat.div_lt_upper_bound; nia.
      * apply Nat.mod_upper_bound; lia.
      * rewrite (Nat.mul_comm _ b), <- Nat.div_mod by lia. exact Hw.
    + apply (entry_concat a b S _ _ w HS) in Hw.
      * rewrite (Nat.mul_comm _ b), <- Nat.div_mod in Hw by lia. exact Hw.
      * apply Nat.div_lt_upper_bound; nia.
      * apply Nat.mod_upper_bound; lia.
  - intros <- x y w. rewrite G. split.
    + intros (p & q & Hp & Hq & -> & -> & Hw). exists p, q. split; [|auto]. now apply (entry_concat a a S p q w HS).
    + intros (k & l & He & -> & ->). destruct (entry_lt a a S k l w HS He) as [Hk Hl]. exists k, l.
      do 4 (split; auto). now apply (entry_concat a a S k l w HS).
Qed.

(** What cannot be drawn: nothing fitted, no shape known, a shape that is not 2D, a grid of another size. *)
Theorem C60_errors (cols : list (list T)) i v o xy index :
  @plot_2D T None None None xy o index = Err ValueError /\
  plot_2D (Some cols) None None None o index = Err ValueError /\
  (forall s own, length s <> 2 -> plot_2D (Some cols) (Some s) own None o index = Err ValueError) /\
  (forall xs ys, py_nth cols i = Ok v -> length v <> length ys * length xs ->
     plot_2D (Some cols) None None (Some (xs, ys)) o (OneIdx i) = Err ValueError) /\
  (forall xs ys, py_nth cols i = Err IndexError -> plot_2D (Some cols) None None (Some (xs, ys)) o (OneIdx i) = Err IndexError).
Proof.
  repeat split.
  - intros [|? [|? [|? ?]]] own Hs; try reflexivity. simpl in Hs; lia.
  - intros xs ys Hv Hl. cbn [plot_2D bind]. cbv zeta. cbn [fst snd figures]. rewrite Hv. cbn [bind]. unfold reshape2.
    apply Nat.eqb_neq in Hl. rewrite Hl. reflexivity.
  - intros xs ys Hv. cbn [plot_2D bind]. cbv zeta. cbn [fst snd figures]. rewrite Hv. reflexivity.
Qed.
End Grid.
Print Assumptions C60_figures.
Print Assumptions C60_fortran.
Print Assumptions C60_axes.
Print Assumptions C60_default.
Print Assumptions C60_errors.

(** The default order scrambles snapshots that are not square: at x = 1, y = 1 of a 2 x 3 snapshot neither the value with
    indexes (1, 1) nor its mirror is drawn, and neighbours in the picture are not neighbours in the snapshot. *)
Theorem C60_rectangular_refuted : exists (S : list (list nat)) f, array 2 3 S /\
  plot_2D (Some [concat S]) None (Some [2; 3]) None OrderC (OneIdx 0) = Ok [(0%Z, f)] /\
  entry S 1 1 11 /\ shows f (tick 1) (tick 1) 10 /\ ~ shows f (tick 1) (tick 1) 11 /\ entry S 1 0 10.
Proof.
  exists [[0; 1; 2]; [10; 11; 12]].
  eexists. split; [split; auto|]. split; [vm_compute; reflexivity|].
  split; [exists [10; 11; 12]; auto|]. split.
  - eexists. split; [right; left; reflexivity|]. right. left. reflexivity.
  - split; [|exists [10; 11; 12]; auto].
    intros (row & [<-|[<-|[<-|[]]]] & [H|[H|[]]]); vm_compute in H; discriminate.
Qed.
Print Assumptions C60_rectangular_refuted.

Example C60_fortran_ex : exists f, array 2 3 [[0; 1; 2]; [10; 11; 12]] /\
  plot_2D (Some [[0; 1; 2; 10; 11; 12]]) None (Some [2; 3]) None OrderF AllIdx = Ok [(0%Z, f)] /\
  shows f (tick 1) (tick 2) 12.
Proof.
  eexists. split; [split; auto|]. split; [vm_compute; reflexivity|]. eexists. split; [right; right; left; reflexivity|].
  right. left. reflexivity.
Qed.

(** Distinct figures go to distinct files. *)
Theorem C60_files base ext i j : figure_name base ext i = figure_name base ext j -> i = j.
Proof.
  unfold figure_name. intros H.
  assert (A : forall p s t, String.append p s = String.append p t -> s = t).
  { induction p as [|c p IH]; simpl; auto. intros s t E. inversion E; auto. }
  apply A, A in H.
  assert (L : forall s t, String.length (String.append s t) = String.length s + String.length t).
  { induction s as [|c s IH]; simpl; auto. }
  assert (B : forall s t e, String.append s e = String.append t e -> s = t).
  { intros s; induction s as [|c s IH]; intros [|d t] e E; auto.
    - apply (f_equal String.length) in E. rewrite !L in E. simpl in E. lia.
    - apply (f_equal String.length) in E. rewrite !L in E. simpl in E. lia.
    - simpl in E. inversion E; subst. f_equal. eapply IH; eauto. }
  apply B in H. apply (f_equal DecimalString.NilZero.int_of_string) in H.
  assert (P : forall z, Z.to_int z <> Decimal.Pos Decimal.Nil).
  { intros [|p|p] E; try discriminate. simpl in E. inversion E as [E'].
    assert (C := DecimalPos.Unsigned.to_uint_nonnil p). congruence. }
  assert (N : forall z, Z.to_int z <> Decimal.Neg Decimal.Nil).
  { intros [|p|p] E; try discriminate. simpl in E. inversion E as [E'].
    assert (C := DecimalPos.Unsigned.to_uint_nonnil p). congruence. }
  rewrite !DecimalString.NilZero.isi in H by auto.
  inversion H as [E]. rewrite <- (DecimalZ.of_to i), <- (DecimalZ.of_to j). now rewrite E.
Qed.
Print Assumptions C60_files.

Import String.
Example C60_files_ex : figure_name "modes"%string ".png"%string 12 = "modes.12.png"%string /\ figure_name "modes"%string ".png"%string (-1) = "modes.-1.png"%string.
Proof. split; reflexivity. Qed.
