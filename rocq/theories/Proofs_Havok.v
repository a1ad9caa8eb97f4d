(** * HAVOK: embedding, slices, threshold *)
From Coq Require Import List Arith ZArith QArith Bool Lia Lqa Sorted.
From Verif Require Import Py Model_Havok.
Import ListNotations.
Set Implicit Arguments.
Local Open Scope nat_scope.

Section Embed.
Variables (V : Type) (cast : V -> V).
Local Notation mat := (mat V).

Lemma seq_last k : seq 0 (S k) = seq 0 k ++ [k].
Proof. now rewrite seq_S. Qed.

(** ** hankel *)
Lemma hankel_shape delays lag n hm f :
  m_rows (hankel_loop cast delays lag n hm f) = n * delays /\ m_cols (hankel_loop cast delays lag n hm f) = hm.
Proof.
unfold hankel_loop.
assert (H : forall l H0, m_rows (fold_left (fun H i => write_rows cast H (i * n) n (fun i' j => Some (f i' (i * lag + j)))) l H0) = m_rows H0
  /\ m_cols (fold_left (fun H i => write_rows cast H (i * n) n (fun i' j => Some (f i' (i * lag + j)))) l H0) = m_cols H0).
{ induction l as [|a l IH]; intro H0; [now split|]. cbn. destruct (IH (write_rows cast H0 (a * n) n (fun i' j => Some (f i' (a * lag + j))))) as [-> ->]. now split. }
destruct (H (seq 0 delays) (empty V (n * delays) hm)) as [-> ->]. now split.
Qed.
Lemma hankel_at lag n hm f rows : forall k q i j, q < k -> i < n ->
  m_at (fold_left (fun H i => write_rows cast H (i * n) n (fun i' j => Some (f i' (i * lag + j)))) (seq 0 k) (empty V rows hm))
    (q * n + i) j = Some (cast (f i (q * lag + j))).
Proof.
induction k as [|k IH]; intros q i j Hq Hi; [lia|].
rewrite seq_last, fold_left_app. cbn [fold_left write_rows m_at].
destruct (Nat.eq_dec q k) as [->|Hne].
- replace (k * n <=? k * n + i) with true by (symmetry; apply Nat.leb_le; lia).
  replace (k * n + i <? k * n + n) with true by (symmetry; apply Nat.ltb_lt; lia). cbn.
  now replace (k * n + i - k * n) with i by lia.
- replace (k * n <=? q * n + i) with false; [cbn; apply IH; lia|].
  symmetry; apply Nat.leb_gt. assert (S q * n <= k * n) by (apply Nat.mul_le_mono_r; lia). cbn in *; lia.
Qed.

(** ** dehankel *)
Definition covers (lag hm r j : nat) : Prop := r * lag <= j < r * lag + hm.
Section De.
Variables (H : mat) (n lag : nat).
Let step X i := write_cols cast X (i * lag) (m_cols H) (fun i' j => m_at H (i * n + i') j).
Lemma de_shape l : forall X0, m_rows (fold_left step l X0) = m_rows X0 /\ m_cols (fold_left step l X0) = m_cols X0.
Proof. induction l as [|a l IH]; intro X0; [now split|]. cbn. destruct (IH (step X0 a)) as [-> ->]. now split. Qed.
Lemma step_in X r i j : covers lag (m_cols H) r j -> m_at (step X r) i j = option_map cast (m_at H (r * n + i) (j - r * lag)).
Proof.
intros [H1 H2]. unfold step, write_cols; cbn [m_at]. apply Nat.leb_le in H1. apply Nat.ltb_lt in H2. now rewrite H1, H2.
Qed.
Lemma step_out X r i j : ~ covers lag (m_cols H) r j -> m_at (step X r) i j = m_at X i j.
Proof.
intros Hc. unfold step, write_cols; cbn [m_at]. destruct (Nat.leb_spec (r * lag) j); [|reflexivity].
destruct (Nat.ltb_spec j (r * lag + m_cols H)); [|reflexivity]. exfalso; apply Hc; split; assumption.
Qed.
Lemma covers_dec r j : {covers lag (m_cols H) r j} + {~ covers lag (m_cols H) r j}.
Proof.
unfold covers. destruct (le_dec (r * lag) j); [|right; lia]. destruct (lt_dec j (r * lag + m_cols H)); [left; lia|right; lia].
Qed.
(** the last block that covers a column is the one read *)
Lemma de_at_last X0 i j : forall k r, r < k -> covers lag (m_cols H) r j ->
  (forall r', r < r' < k -> ~ covers lag (m_cols H) r' j) ->
  m_at (fold_left step (seq 0 k) X0) i j = option_map cast (m_at H (r * n + i) (j - r * lag)).
Proof.
induction k as [|k IH]; intros r Hr Hc Hn; [lia|].
rewrite seq_last, fold_left_app. cbn [fold_left].
destruct (Nat.eq_dec r k) as [->|Hne]; [now apply step_in|].
rewrite step_out; [apply IH; [lia|assumption|intros; apply Hn; lia]|apply Hn; lia].
Qed.
Lemma de_at_none X0 i j : forall k, (forall r, r < k -> ~ covers lag (m_cols H) r j) ->
  m_at (fold_left step (seq 0 k) X0) i j = m_at X0 i j.
Proof.
induction k as [|k IH]; intro Hn; [reflexivity|].
rewrite seq_last, fold_left_app. cbn [fold_left]. rewrite step_out by (apply Hn; lia). apply IH; intros; apply Hn; lia.
Qed.
Lemma de_at_any X0 i j v : forall k r, r < k -> covers lag (m_cols H) r j ->
  (forall r', r' < k -> covers lag (m_cols H) r' j -> option_map cast (m_at H (r' * n + i) (j - r' * lag)) = v) ->
  m_at (fold_left step (seq 0 k) X0) i j = v.
Proof.
induction k as [|k IH]; intros r Hr Hc Hv; [lia|].
rewrite seq_last, fold_left_app. cbn [fold_left].
destruct (covers_dec k j) as [Hk|Hk].
- rewrite step_in by assumption. apply Hv; [lia|assumption].
- rewrite step_out by assumption. apply (IH r); [|assumption|intros; apply Hv; [lia|assumption]].
  destruct (Nat.eq_dec r k) as [->|]; [contradiction|lia].
Qed.
End De.

(** which columns are covered *)
Lemma coverage delays lag hm j : 1 <= delays -> 1 <= hm -> lag <= hm \/ delays = 1 -> j < hm + (delays - 1) * lag ->
  exists r, r < delays /\ covers lag hm r j.
Proof.
intros Hd Hh Hl Hj. unfold covers.
destruct (Nat.eq_dec lag 0) as [->|L0]; [exists 0; lia|].
destruct (le_lt_dec (delays - 1) (j / lag)) as [H|H].
- exists (delays - 1). split; [lia|]. split; [|lia].
  assert (lag * (j / lag) <= j) by (apply Nat.mul_div_le; assumption). nia.
- exists (j / lag). split; [lia|].
  assert (H1 := Nat.div_mod j lag L0). assert (H2 := Nat.mod_upper_bound j lag L0).
  destruct Hl as [Hl|Hl]; [|lia]. split; nia.
Qed.
Lemma gap lag hm r : hm < lag -> ~ covers lag hm r hm.
Proof. unfold covers. intros H [H1 H2]. destruct r; [lia|]. nia. Qed.
End Embed.

(** ** Slices *)
Section Slices.
Variable d : Z.
Open Scope Z_scope.
(** all consecutive gaps at most [d] *)
Definition tight (g : list Z) : Prop := forall p, In p (pairs g) -> snd p - fst p <= d.
Definition ends (g : list Z) : Z * Z := (hd 0 g, last g 0).

Lemma last_dflt (g : list Z) a b : g <> [] -> last g a = last g b.
Proof. induction g as [|x [|y g] IH]; intro H; [congruence|reflexivity|]. cbn in *. apply IH. discriminate. Qed.

(** the groups of indexes between jumps *)
Fixpoint runs (x : list Z) : list (list Z) :=
  match x with
  | [] => []
  | a :: t => match runs t with
              | (b :: g) :: gs => if is_jump d (a, b) then [a] :: (b :: g) :: gs else (a :: b :: g) :: gs
              | _ => [[a]]
              end
  end.
Lemma runs_cons a b t : exists g gs, runs (b :: t) = g :: gs /\ hd 0 g = b /\ g <> [] /\
  runs (a :: b :: t) = if is_jump d (a, b) then [a] :: g :: gs else (a :: g) :: gs.
Proof.
revert a b; induction t as [|c t IH]; intros a b.
- exists [b], []. repeat split; discriminate || (cbn; destruct (is_jump d (a, b)); reflexivity).
- destruct (IH b c) as [g [gs [E [Eh [Hn E']]]]].
  assert (exists g gs, runs (b :: c :: t) = g :: gs /\ hd 0 g = b /\ g <> []) as [g1 [gs1 [E1 [H1 N1]]]].
  { rewrite E'. destruct (is_jump d (b, c)); [exists [b], (g :: gs)|exists (b :: g), gs]; repeat split; discriminate. }
  exists g1, gs1. repeat split; try assumption.
  change (runs (a :: b :: c :: t)) with (match runs (b :: c :: t) with
     | (b :: g) :: gs => if is_jump d (a, b) then [a] :: (b :: g) :: gs else (a :: b :: g) :: gs | _ => [[a]] end).
  rewrite E1. destruct g1 as [|b1 g1]; [congruence|]. cbn in H1; now subst b1.
Qed.
Lemma runs_ind (P : list Z -> list (list Z) -> Prop) :
  (forall a, P [a] [[a]]) ->
  (forall a b t g gs, runs (b :: t) = g :: gs -> hd 0 g = b -> g <> [] -> P (b :: t) (g :: gs) ->
     (is_jump d (a, b) = true -> P (a :: b :: t) ([a] :: g :: gs)) /\ (is_jump d (a, b) = false -> P (a :: b :: t) ((a :: g) :: gs))) ->
  forall a t, P (a :: t) (runs (a :: t)).
Proof.
intros H1 H2 a t; revert a; induction t as [|b t IH]; intro a; [apply H1|].
destruct (runs_cons a b t) as [g [gs [E [Eh [Hn E']]]]]. rewrite E'.
specialize (IH b). rewrite E in IH. destruct (H2 a b t g gs E Eh Hn IH) as [J1 J2].
destruct (is_jump d (a, b)) eqn:J; [now apply J1|now apply J2].
Qed.

Lemma runs_concat a t : concat (runs (a :: t)) = a :: t.
Proof.
revert a t. apply runs_ind with (P := fun x gs => concat gs = x); [reflexivity|].
intros a b t g gs _ _ _ H; split; intros _; cbn in *; now rewrite H.
Qed.
Lemma runs_nonempty a t : Forall (fun g => g <> []) (runs (a :: t)).
Proof.
revert a t. apply runs_ind with (P := fun x gs => Forall (fun g => g <> []) gs); [intro a; repeat constructor; discriminate|].
intros a b t g gs _ _ Hn H; split; intros _; [constructor; [discriminate|assumption]|].
inversion H; subst. constructor; [discriminate|assumption].
Qed.
Lemma jump_spec a b : is_jump d (a, b) = true <-> d < b - a.
Proof. unfold is_jump; cbn. apply Z.ltb_lt. Qed.
Lemma tight1 a : tight [a].
Proof. intros p H; destruct H. Qed.
Lemma tight_cons a g : g <> [] -> hd 0 g - a <= d -> tight g -> tight (a :: g).
Proof.
intros Hn Hd Ht p. destruct g as [|b g]; [congruence|]. cbn [pairs]. intros [<-|H]; [exact Hd|now apply Ht].
Qed.
Lemma runs_tight a t : Forall tight (runs (a :: t)).
Proof.
revert a t. apply runs_ind with (P := fun x gs => Forall tight gs); [intro a; repeat constructor; apply tight1|].
intros a b t g gs _ Hh Hn H; split; intros J; [constructor; [apply tight1|assumption]|].
inversion H; subst. constructor; [|assumption]. apply tight_cons; [assumption| |assumption].
destruct (Z.le_gt_cases (hd 0 g - a) d); [assumption|].
assert (is_jump d (a, hd 0 g) = true) by (apply jump_spec; lia). congruence.
Qed.
(** consecutive groups are separated by more than [d] *)
Fixpoint separated (gs : list (list Z)) : Prop :=
  match gs with
  | g :: ((h :: _) as r) => d < hd 0 h - last g 0 /\ separated r
  | _ => True
  end.
Lemma last_cons a (g : list Z) x : g <> [] -> last (a :: g) x = last g x.
Proof. now destruct g. Qed.
Lemma runs_separated a t : separated (runs (a :: t)).
Proof.
revert a t. apply runs_ind with (P := fun x gs => separated gs); [intro a; exact I|].
intros a b t g gs _ Hh Hn H; split; intros J.
- cbn [separated]. split; [cbn; rewrite Hh; now apply jump_spec|exact H].
- destruct gs as [|h gs]; [exact I|]. cbn [separated] in *. destruct H as [H1 H2]. split; [|exact H2].
  now rewrite last_cons.
Qed.
(** the slices are the ends of the groups *)
Lemma runs_slices : forall a t, index_slices (a :: t) d = Ok (map ends (runs (a :: t))).
Proof.
assert (K : forall a t, combine (a :: map snd (filter (is_jump d) (pairs (a :: t)))) (map fst (filter (is_jump d) (pairs (a :: t))) ++ [last (a :: t) 0])
   = map ends (runs (a :: t))).
{ apply runs_ind with (P := fun x gs => combine (hd 0 x :: map snd (filter (is_jump d) (pairs x))) (map fst (filter (is_jump d) (pairs x)) ++ [last x 0]) = map ends gs); [reflexivity|].
  intros a b t g gs _ Hh Hn H. change (pairs (a :: b :: t)) with ((a, b) :: pairs (b :: t)). rewrite (@last_cons a (b :: t)) by discriminate.
  cbn [filter]. cbn [hd] in *. revert H. generalize (filter (is_jump d) (pairs (b :: t))) (last (b :: t) 0). intros F z H.
  split; intro J; rewrite J.
  - cbn [map fst snd app]. change (combine (a :: b :: map snd F) (a :: map fst F ++ [z])) with ((a, a) :: combine (b :: map snd F) (map fst F ++ [z])).
    rewrite H. reflexivity.
  - destruct (map fst F ++ [z]) as [|e es] eqn:E; [now destruct (map fst F)|].
    cbn [combine map] in *. injection H as H1 H2 H3. rewrite H3. f_equal. unfold ends. cbn [hd]. f_equal. rewrite last_cons by assumption. exact H2. }
intros a t. unfold index_slices. rewrite <- K. do 3 f_equal. now rewrite (last_dflt a 0).
Qed.
End Slices.

(** ** Threshold *)
Section Threshold.
Open Scope Q_scope.
Definition total (l : list Q) : Q := fold_right Qplus 0 l.
Lemma cumsum_from_nth l : forall s i, (i < length l)%nat -> nth i (cumsum_from s l) 0 == s + total (firstn (S i) l).
Proof.
induction l as [|x l IH]; intros s i Hi; [inversion Hi|].
destruct i as [|i]; cbn [cumsum_from nth firstn total fold_right]; [now rewrite Qplus_0_r|].
rewrite IH by (cbn in Hi; lia). cbn [firstn total fold_right]. fold (total (firstn (S i) l)).
change (fold_right Qplus 0 (match l with [] => [] | a :: l0 => a :: firstn i l0 end)) with (total (firstn (S i) l)). ring.
Qed.
Lemma cumsum_from_len l : forall s, length (cumsum_from s l) = length l.
Proof. induction l as [|x l IH]; intro s; cbn; [reflexivity|now rewrite IH]. Qed.
Lemma cumsum_nth l i : (i < length l)%nat -> nth i (cumsum l) 0 == total (firstn (S i) l).
Proof. intro H. unfold cumsum. rewrite cumsum_from_nth by assumption. ring. Qed.
Lemma total_app a b : total (a ++ b) == total a + total b.
Proof. induction a as [|x a IH]; [change (total b == 0 + total b); ring|]. cbn [app]. change (x + total (a ++ b) == x + total a + total b). rewrite IH. ring. Qed.
Lemma Qltb_lt a b : Qltb a b = true <-> a < b.
Proof. unfold Qltb. rewrite negb_true_iff, <- not_true_iff_false, Qle_bool_iff. split; intro; lra. Qed.
Lemma Qltb_ge a b : Qltb a b = false <-> b <= a.
Proof. unfold Qltb. rewrite negb_false_iff, Qle_bool_iff. reflexivity. Qed.
Lemma first_true_some (A : Type) (f : A -> bool) a0 l : forall i, first_true (map f l) = Some i ->
  (i < length l)%nat /\ f (nth i l a0) = true /\ forall j, (j < i)%nat -> f (nth j l a0) = false.
Proof.
induction l as [|x l IH]; intros i; [discriminate|]. cbn [map first_true].
destruct (f x) eqn:E.
- intros [= <-]. cbn. split; [lia|]. split; [assumption|]. intros j Hj; inversion Hj.
- destruct (first_true (map f l)) as [k|]; [|discriminate]. intros [= <-].
  destruct (IH k eq_refl) as [H1 [H2 H3]]. cbn. split; [lia|]. split; [assumption|].
  intros [|j] Hj; [assumption|]. apply H3; lia.
Qed.
Lemma first_true_none (A : Type) (f : A -> bool) l : first_true (map f l) = None <-> forall a, In a l -> f a = false.
Proof.
induction l as [|x l IH]; cbn [map first_true In]; [split; [intros _ a []|reflexivity]|].
destruct (f x) eqn:E.
- split; [discriminate|]. intro H. rewrite (H x (or_introl eq_refl)) in E; discriminate.
- destruct (first_true (map f l)) as [k|].
  + split; [discriminate|]. intro H. assert (Some k = None) by (apply IH; intros; apply H; now right). discriminate.
  + split; [|reflexivity]. intros _ a [<-|H]; [assumption|]. now apply IH.
Qed.
Definition nonneg (l : list Q) : Prop := forall x, In x l -> 0 <= x.
Lemma total_nonneg l : nonneg l -> 0 <= total l.
Proof.
induction l as [|x l IH]; intro H; cbn; [lra|]. fold (total l).
assert (0 <= x) by (apply H; now left). assert (0 <= total l) by (apply IH; intros y Hy; apply H; now right). lra.
Qed.
Lemma total_split l i : total l == total (firstn i l) + total (skipn i l).
Proof. rewrite <- total_app, firstn_skipn. reflexivity. Qed.
Lemma firstn_all' (l : list Q) : total (firstn (length l) l) == total l.
Proof. now rewrite firstn_all. Qed.
End Threshold.
