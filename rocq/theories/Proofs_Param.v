(** * Lemmas for C34 and C35: row-major index arithmetic *)
From Coq Require Import List Arith Bool Lia.
From Verif Require Import Py Model_Param.
Import ListNotations.
Set Implicit Arguments.

Lemma div_idx c i j : j < c -> (i * c + j) / c = i.
Proof. intro H; rewrite Nat.div_add_l by lia; rewrite Nat.div_small by lia; lia. Qed.
Lemma mod_idx c i j : j < c -> (i * c + j) mod c = j.
Proof. intro H; rewrite Nat.add_comm, Nat.mod_add by lia; apply Nat.mod_small; exact H. Qed.
Lemma idx_lt a c i j : i < a -> j < c -> i * c + j < a * c.
Proof. intros; nia. Qed.

Section Arr.
Variables (V : Type) (v0 : V).
Notation at2 := (at2 v0). Notation at3 := (at3 v0).
Definition wf2 (A : arr2 V) : Prop := length (d2 A) = r2 A * c2 A.
Definition wf3 (A : arr3 V) : Prop := length (d3 A) = n0 A * n1 A * n2 A.

Lemma nth_map_seq {B} (f : nat -> B) n k b : k < n -> nth k (map f (seq 0 n)) b = f k.
Proof.
  intro H; rewrite (nth_indep _ b (f 0)) by (rewrite map_length, seq_length; exact H).
  rewrite map_nth, seq_nth by exact H; reflexivity.
Qed.
Lemma wf2_tab2 r c (f : nat -> nat -> V) : wf2 (tab2 r c f).
Proof. unfold wf2; simpl; rewrite map_length, seq_length; reflexivity. Qed.
Lemma wf3_tab3 a b c (f : nat -> nat -> nat -> V) : wf3 (tab3 a b c f).
Proof. unfold wf3; simpl; rewrite map_length, seq_length; reflexivity. Qed.
Lemma at2_tab2 r c (f : nat -> nat -> V) i j : i < r -> j < c -> at2 (tab2 r c f) i j = f i j.
Proof.
  intros Hi Hj; unfold Model_Param.at2, tab2; simpl.
  rewrite nth_map_seq by (apply idx_lt; assumption).
  rewrite div_idx, mod_idx by exact Hj; reflexivity.
Qed.
Lemma at3_tab3 a b c (f : nat -> nat -> nat -> V) i j k : i < a -> j < b -> k < c -> at3 (tab3 a b c f) i j k = f i j k.
Proof.
  intros Hi Hj Hk; unfold Model_Param.at3, tab3; simpl.
  rewrite nth_map_seq by (apply idx_lt; [apply idx_lt|]; assumption).
  rewrite !div_idx, !mod_idx by assumption; reflexivity.
Qed.
Lemma ext2 (A B : arr2 V) : wf2 A -> wf2 B -> r2 A = r2 B -> c2 A = c2 B ->
  (forall i j, i < r2 A -> j < c2 A -> at2 A i j = at2 B i j) -> A = B.
Proof.
  destruct A as [r c d], B as [r' c' d']; unfold wf2, Model_Param.at2; simpl; intros HA HB -> -> H.
  f_equal; apply nth_ext with (d := v0) (d' := v0); [lia|intros n Hn].
  destruct (Nat.eq_dec c' 0) as [->|Hc]; [lia|].
  specialize (H (n / c') (n mod c')).
  rewrite (Nat.mul_comm (n / c')), <- Nat.div_mod in H by exact Hc.
  apply H; [apply Nat.div_lt_upper_bound; [exact Hc|lia]|apply Nat.mod_upper_bound; exact Hc].
Qed.
Lemma ext3 (A B : arr3 V) : wf3 A -> wf3 B -> n0 A = n0 B -> n1 A = n1 B -> n2 A = n2 B ->
  (forall i j k, i < n0 A -> j < n1 A -> k < n2 A -> at3 A i j k = at3 B i j k) -> A = B.
Proof.
  destruct A as [a b c d], B as [a' b' c' d']; unfold wf3, Model_Param.at3; simpl; intros HA HB -> -> -> H.
  f_equal; apply nth_ext with (d := v0) (d' := v0); [lia|intros n Hn].
  destruct (Nat.eq_dec c' 0) as [->|Hc]; [lia|].
  destruct (Nat.eq_dec b' 0) as [->|Hb]; [lia|].
  specialize (H (n / c' / b') ((n / c') mod b') (n mod c')).
  rewrite (Nat.mul_comm (n / c' / b')), <- Nat.div_mod in H by exact Hb.
  rewrite (Nat.mul_comm (n / c')), <- Nat.div_mod in H by exact Hc.
  apply H; [|apply Nat.mod_upper_bound; exact Hb|apply Nat.mod_upper_bound; exact Hc].
  apply Nat.div_lt_upper_bound; [exact Hb|]; apply Nat.div_lt_upper_bound; [exact Hc|]; lia.
Qed.

(** swapaxes, roll *)
Lemma roll_at (A : arr3 V) t i j : t < n2 A -> i < n0 A -> j < n1 A -> at3 (roll_shape v0 A) t i j = at3 A i j t.
Proof. intros; unfold roll_shape, swap12, swap02; rewrite !at3_tab3; auto. Qed.
Lemma back_roll_at (A : arr3 V) i j k : i < n1 A -> j < n2 A -> k < n0 A -> at3 (back_roll_shape v0 A) i j k = at3 A k i j.
Proof. intros; unfold back_roll_shape, swap12, swap01; rewrite !at3_tab3; auto. Qed.

(** the arranged snapshots: column p*n + t is snapshot t of parameter p *)
Lemma arrange_ok (X : arr3 V) M : arrange v0 X = Ok M ->
  0 < n1 X /\ wf2 M /\ r2 M = n1 X /\ c2 M = n0 X * n2 X /\
  forall p x t, p < n0 X -> x < n1 X -> t < n2 X -> at2 M x (p * n2 X + t) = at3 X p x t.
Proof.
  unfold arrange; simpl; destruct (Nat.eqb_spec (n1 X) 0) as [|H]; [discriminate|intro E; injection E as <-].
  repeat split; try lia.
  - unfold wf2; simpl; rewrite map_length, seq_length; lia.
  - intros p x t Hp Hx Ht.
    transitivity (at3 (swap01 v0 X) x p t).
    + unfold Model_Param.at2, Model_Param.at3; simpl; f_equal; ring.
    + unfold swap01; rewrite at3_tab3 by assumption; reflexivity.
Qed.

(** split by columns *)
Lemma split_cols_ok (A : arr2 V) k l : split_cols v0 A k = Ok l ->
  0 < k /\ k * (c2 A / k) = c2 A /\ length l = k /\
  forall b, b < k -> wf2 (nth b l (A2 0 0 [])) /\ r2 (nth b l (A2 0 0 [])) = r2 A /\ c2 (nth b l (A2 0 0 [])) = c2 A / k /\
    forall i j, i < r2 A -> j < c2 A / k -> at2 (nth b l (A2 0 0 [])) i j = at2 A i (b * (c2 A / k) + j).
Proof.
  unfold split_cols; destruct (Nat.eqb_spec k 0) as [|Hk]; [discriminate|].
  destruct (Nat.eqb_spec (c2 A mod k) 0) as [Hm|]; [|discriminate]; intro E; injection E as <-.
  split; [lia|]; split; [rewrite (Nat.div_mod (c2 A) k) at 2 by exact Hk; lia|].
  split; [rewrite map_length, seq_length; reflexivity|].
  intros b Hb; rewrite nth_map_seq by exact Hb.
  split; [apply wf2_tab2|split; [reflexivity|split; [reflexivity|]]].
  intros; rewrite at2_tab2 by assumption; reflexivity.
Qed.

(** concatenation of equally long blocks *)
Lemma concat_nth (l : list (list V)) w b i : (forall x, In x l -> length x = w) -> b < length l -> i < w ->
  nth (b * w + i) (concat l) v0 = nth i (nth b l []) v0.
Proof.
  revert b; induction l as [|x l IH]; simpl; intros b H Hb Hi; [lia|].
  assert (Hx : length x = w) by (apply H; left; reflexivity).
  destruct b as [|b].
  - simpl; rewrite app_nth1 by lia; reflexivity.
  - rewrite app_nth2 by (rewrite Hx; nia).
    replace (S b * w + i - length x) with (b * w + i) by (rewrite Hx; simpl; lia).
    apply IH; [intros; apply H; right; assumption|lia|exact Hi].
Qed.
Lemma concat_length (l : list (list V)) w : (forall x, In x l -> length x = w) -> length (concat l) = length l * w.
Proof.
  induction l as [|x l IH]; simpl; intro H; [reflexivity|].
  rewrite app_length, IH by (intros; apply H; right; assumption).
  rewrite (H x) by (left; reflexivity); lia.
Qed.

(** vstack of equally shaped blocks *)
Definition same_shape (r c : nat) (l : list (arr2 V)) : Prop :=
  forall A, In A l -> wf2 A /\ r2 A = r /\ c2 A = c.
Lemma same_shape_nth r c l b : same_shape r c l -> b < length l ->
  wf2 (nth b l (A2 0 0 [])) /\ r2 (nth b l (A2 0 0 [])) = r /\ c2 (nth b l (A2 0 0 [])) = c.
Proof. intros H Hb; apply H, nth_In; exact Hb. Qed.
Lemma same_shape_of r c (l : list (arr2 V)) :
  (forall b, b < length l -> wf2 (nth b l (A2 0 0 [])) /\ r2 (nth b l (A2 0 0 [])) = r /\ c2 (nth b l (A2 0 0 [])) = c) -> same_shape r c l.
Proof. intros H A HA; destruct (In_nth _ _ (A2 0 0 []) HA) as (b & Hb & <-); apply H; exact Hb. Qed.
Lemma sum_rows r c (l : list (arr2 V)) : same_shape r c l -> fold_right (fun B s => r2 B + s) 0 l = length l * r.
Proof.
  induction l as [|A l IH]; simpl; intro H; [reflexivity|].
  destruct (H A) as (_ & -> & _); [left; reflexivity|].
  rewrite IH; [reflexivity|]; intros B HB; apply H; right; exact HB.
Qed.
Lemma vstack_ok r c (l : list (arr2 V)) : same_shape r c l -> l <> [] ->
  exists F, vstack l = Ok F /\ wf2 F /\ r2 F = length l * r /\ c2 F = c /\
    forall b i j, b < length l -> i < r -> j < c -> at2 F (b * r + i) j = at2 (nth b l (A2 0 0 [])) i j.
Proof.
  intros H Hn; destruct l as [|A t]; [congruence|].
  assert (HA : wf2 A /\ r2 A = r /\ c2 A = c) by (apply H; left; reflexivity).
  exists (A2 (fold_right (fun B s => r2 B + s) 0 (A :: t)) (c2 A) (concat (map (@d2 V) (A :: t)))).
  assert (L : forall x, In x (map (@d2 V) (A :: t)) -> length x = r * c).
  { intros x Hx; apply in_map_iff in Hx as (B & <- & HB); destruct (H B HB) as (wB & rB & cB); rewrite wB, rB, cB; reflexivity. }
  repeat split.
  - unfold vstack; replace (forallb _ t) with true; [reflexivity|].
    symmetry; apply forallb_forall; intros B HB; apply Nat.eqb_eq.
    destruct (H B) as (_ & _ & ->); [right; exact HB|]; symmetry; apply HA.
  - unfold wf2; cbn [d2 r2 c2]; rewrite (concat_length _ L), map_length, (sum_rows H).
    destruct HA as (_ & _ & ->); ring.
  - cbn [r2]; apply (sum_rows H).
  - apply HA.
  - intros b i j Hb Hi Hj; unfold Model_Param.at2; cbn [d2 c2].
    destruct (same_shape_nth H Hb) as (_ & _ & cb); rewrite cb.
    destruct HA as (_ & _ & ->).
    replace ((b * r + i) * c + j) with (b * (r * c) + (i * c + j)) by ring.
    rewrite (concat_nth _ L); [|rewrite map_length; exact Hb|apply idx_lt; assumption].
    change (@nil V) with (d2 (A2 0 0 (@nil V))); rewrite map_nth; reflexivity.
Qed.

(** reshape (k, -1, c) of k*r rows *)
Lemma split_rows_ok (F : arr2 V) k r : wf2 F -> r2 F = k * r -> 0 < k -> 0 < c2 F ->
  exists B, split_rows F k = Ok B /\ wf3 B /\ n0 B = k /\ n1 B = r /\ n2 B = c2 F /\
    forall p j t, j < r -> at3 B p j t = at2 F (p * r + j) t.
Proof.
  intros HF Hr Hk Hc; exists (A3 k r (c2 F) (d2 F)).
  assert (Hd : r2 F * c2 F = r * (k * c2 F)) by (rewrite Hr; ring).
  split.
  - unfold split_rows; destruct (Nat.eqb_spec (k * c2 F) 0) as [E|E]; [nia|].
    rewrite Hd, Nat.mod_mul, Nat.div_mul by exact E; reflexivity.
  - unfold wf3; simpl; repeat split; try reflexivity.
    unfold wf2 in HF; rewrite HF, Hr; ring.
Qed.
Lemma split_rows_inv (F : arr2 V) k B : split_rows F k = Ok B -> n0 B = k /\ n2 B = c2 F /\ 0 < k /\ 0 < c2 F /\ d3 B = d2 F.
Proof.
  unfold split_rows; destruct (Nat.eqb_spec (k * c2 F) 0) as [E|E]; [discriminate|].
  destruct (_ =? 0); [|discriminate]; intro H; injection H as <-; simpl; repeat split; nia.
Qed.

(** slices along the first axis *)
Lemma slice0_at (A : arr3 V) t : wf3 A -> t < n0 A -> wf2 (slice0 A t) /\
  forall i j, i < n1 A -> j < n2 A -> at2 (slice0 A t) i j = at3 A t i j.
Proof.
  intros HA Ht; split.
  - unfold wf2, slice0; simpl; rewrite firstn_length, skipn_length; unfold wf3 in HA; rewrite HA; nia.
  - intros i j Hi Hj; unfold Model_Param.at2, Model_Param.at3, slice0; simpl.
    assert (H : i * n2 A + j < n1 A * n2 A) by (apply idx_lt; assumption).
    replace (nth _ (firstn _ (skipn (t * (n1 A * n2 A)) (d3 A))) v0)
       with (nth (i * n2 A + j) (skipn (t * (n1 A * n2 A)) (d3 A)) v0).
    + rewrite <- (firstn_skipn (t * (n1 A * n2 A)) (d3 A)) at 2.
      rewrite app_nth2; rewrite firstn_length, Nat.min_l by (unfold wf3 in HA; rewrite HA; nia); [|nia].
      f_equal; nia.
    + rewrite <- (firstn_skipn (n1 A * n2 A) (skipn (t * (n1 A * n2 A)) (d3 A))) at 1.
      rewrite app_nth1; [reflexivity|].
      rewrite firstn_length, skipn_length; unfold wf3 in HA; rewrite HA; nia.
Qed.
Lemma slices_roll (B : arr3 V) : slices0 (roll_shape v0 B) = map (fun t => tab2 (n0 B) (n1 B) (fun i j => at3 B i j t)) (seq 0 (n2 B)).
Proof.
  unfold slices0; replace (n0 (roll_shape v0 B)) with (n2 B) by reflexivity.
  apply map_ext_in; intros t Ht; apply in_seq in Ht.
  assert (W : wf3 (roll_shape v0 B)) by apply wf3_tab3.
  destruct (@slice0_at _ t W) as (W2 & H); [simpl; lia|].
  apply ext2; try reflexivity; [exact W2|apply wf2_tab2|].
  intros i j Hi Hj; rewrite H by assumption; rewrite at2_tab2 by assumption; simpl in Hi, Hj.
  apply roll_at; lia.
Qed.

(** dstack *)
Lemma dstack_ok (l : list (arr2 V)) D : dstack v0 l = Ok D ->
  l <> [] /\ wf3 D /\ n2 D = length l /\
  forall t, t < length l -> r2 (nth t l (A2 0 0 [])) = n0 D /\ c2 (nth t l (A2 0 0 [])) = n1 D /\
    forall i j, i < n0 D -> j < n1 D -> at3 D i j t = at2 (nth t l (A2 0 0 [])) i j.
Proof.
  destruct l as [|A t]; [discriminate|]; unfold dstack.
  destruct (forallb _ t) eqn:Hf; [|discriminate]; intro E; injection E as <-.
  split; [discriminate|]; split; [apply wf3_tab3|]; split; [reflexivity|].
  rewrite forallb_forall in Hf.
  assert (S : forall k, k < length (A :: t) -> r2 (nth k (A :: t) (A2 0 0 [])) = r2 A /\ c2 (nth k (A :: t) (A2 0 0 [])) = c2 A).
  { intros [|k] Hk; [split; reflexivity|].
    assert (HB : In (nth k t (A2 0 0 [])) t) by (apply nth_In; simpl in Hk; lia).
    apply Hf, andb_prop in HB as (H1 & H2); apply Nat.eqb_eq in H1; apply Nat.eqb_eq in H2.
    simpl; rewrite H1, H2; split; reflexivity. }
  intros k Hk; destruct (S k Hk) as (S1 & S2); rewrite S1, S2; split; [reflexivity|split; [reflexivity|]].
  intros i j Hi Hj; rewrite at3_tab3 by assumption.
  destruct k; [reflexivity|]; simpl; f_equal; apply nth_indep; simpl in Hk; lia.
Qed.
Lemma dstack_total r c (l : list (arr2 V)) : l <> [] -> (forall A, In A l -> r2 A = r /\ c2 A = c) ->
  exists D, dstack v0 l = Ok D /\ n0 D = r /\ n1 D = c.
Proof.
  destruct l as [|A t]; [congruence|]; intros _ H.
  assert (HA : r2 A = r /\ c2 A = c) by (apply H; left; reflexivity).
  unfold dstack; replace (forallb _ t) with true; [eexists; split; [reflexivity|exact HA]|].
  symmetry; apply forallb_forall; intros B HB; destruct (H B) as (-> & ->); [right; exact HB|].
  destruct HA as (-> & ->); rewrite !Nat.eqb_refl; reflexivity.
Qed.

(** all_ok *)
Lemma all_ok_map {A B} (f : A -> result B) l r : all_ok (map f l) = Ok r ->
  length r = length l /\ forall i a b, i < length l -> f (nth i l a) = Ok (nth i r b).
Proof.
  revert r; induction l as [|x l IH]; simpl; intros r E; [injection E as <-; split; [reflexivity|intros; lia]|].
  destruct (f x) as [y|] eqn:Hx; [|discriminate]; simpl in E.
  destruct (all_ok (map f l)) as [r'|]; [|discriminate]; simpl in E; injection E as <-.
  destruct (IH r' eq_refl) as (L & H); split; [simpl; lia|].
  intros [|i] a b Hi; simpl; [exact Hx|apply H; lia].
Qed.
Lemma all_ok_total {A B} (f : A -> result B) l (g : A -> B) : (forall x, In x l -> f x = Ok (g x)) -> all_ok (map f l) = Ok (map g l).
Proof.
  induction l as [|x l IH]; simpl; intro H; [reflexivity|].
  rewrite H by (left; reflexivity); simpl; rewrite IH by (intros; apply H; right; assumption); reflexivity.
Qed.

(** apply_along_axis *)
Lemma apply_axis1_ok f (A : arr3 V) D : apply_axis1 v0 f A = Ok D ->
  wf3 D /\ n0 D = n0 A /\ n2 D = n2 A /\
  forall i k, i < n0 A -> k < n2 A -> exists v, f (fibre v0 A i k) = Ok v /\ length v = n1 D /\
    forall x, x < n1 D -> at3 D i x k = nth x v v0.
Proof.
  unfold apply_axis1; destruct (n0 A * n2 A =? 0); [discriminate|].
  destruct (all_ok _) as [vs|] eqn:Hv; [|discriminate]; simpl.
  destruct (forallb _ vs) eqn:Hf; [|discriminate]; intro E; injection E as <-.
  split; [apply wf3_tab3|]; split; [reflexivity|]; split; [reflexivity|].
  intros i k Hi Hk; apply all_ok_map in Hv as (L & H).
  rewrite seq_length in L, H.
  assert (Hp : i * n2 A + k < n0 A * n2 A) by (apply idx_lt; assumption).
  exists (nth (i * n2 A + k) vs []); specialize (H _ 0 [] Hp).
  rewrite seq_nth, Nat.add_0_l, div_idx, mod_idx in H by assumption.
  split; [exact H|]; split.
  - rewrite forallb_forall in Hf; apply Nat.eqb_eq, Hf, nth_In; lia.
  - intros x Hx; rewrite at3_tab3 by assumption; reflexivity.
Qed.
Lemma apply_axis1_total f (A : arr3 V) m : 0 < n0 A -> 0 < n2 A ->
  (forall i k, i < n0 A -> k < n2 A -> exists v, f (fibre v0 A i k) = Ok v /\ length v = m) ->
  exists D, apply_axis1 v0 f A = Ok D /\ n1 D = m.
Proof.
  intros H0 H2 H; unfold apply_axis1; destruct (Nat.eqb_spec (n0 A * n2 A) 0) as [E|E]; [nia|].
  set (g := fun p => match f (fibre v0 A (p / n2 A) (p mod n2 A)) with Ok v => v | Err _ => [] end).
  assert (G : forall p, p < n0 A * n2 A -> f (fibre v0 A (p / n2 A) (p mod n2 A)) = Ok (g p) /\ length (g p) = m).
  { intros p Hp; unfold g; destruct (H (p / n2 A) (p mod n2 A)) as (v & -> & Lv);
      [apply Nat.div_lt_upper_bound; lia|apply Nat.mod_upper_bound; lia|split; [reflexivity|exact Lv]]. }
  rewrite (all_ok_total _ _ g) by (intros p Hp; apply in_seq in Hp; apply G; lia); simpl.
  assert (L : length (hd [] (map g (seq 0 (n0 A * n2 A)))) = m).
  { destruct (n0 A * n2 A) as [|n] eqn:En; [lia|]; simpl; apply G; lia. }
  rewrite L; replace (forallb _ _) with true; [eexists; split; reflexivity|].
  symmetry; apply forallb_forall; intros v Hv; apply in_map_iff in Hv as (p & <- & Hp); apply in_seq in Hp.
  apply Nat.eqb_eq, G; lia.
Qed.
Lemma fibre_ext (A : arr3 V) i k (f : nat -> V) : (forall j, j < n1 A -> at3 A i j k = f j) -> fibre v0 A i k = map f (seq 0 (n1 A)).
Proof. intro H; apply map_ext_in; intros j Hj; apply in_seq in Hj; apply H; lia. Qed.
End Arr.
