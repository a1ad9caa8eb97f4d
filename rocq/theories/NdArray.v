(** * NumPy arrays as a shape and an index function (row-major order)

    The vocabulary used to model reshape, transpose, sliding windows, stacking.
    Only entries at in-range multi-indexes are meaningful. *)
From Coq Require Import List ZArith Lia Bool Arith.
From Verif Require Import Py.
Import ListNotations.
Local Open Scope nat_scope.

Record nd (A : Type) := mkNd { shape : list nat; at_ : list nat -> A }.
Arguments mkNd {A}. Arguments shape {A}. Arguments at_ {A}.

Definition size (s : list nat) : nat := fold_right Nat.mul 1 s.

(** is the multi-index in range for the shape *)
Fixpoint inb (s idx : list nat) : Prop :=
  match s, idx with
  | [], [] => True
  | n :: s', i :: idx' => i < n /\ inb s' idx'
  | _, _ => False
  end.

(** row-major position of a multi-index, and back *)
Fixpoint ravel (s idx : list nat) : nat :=
  match s, idx with
  | n :: s', i :: idx' => i * size s' + ravel s' idx'
  | _, _ => 0
  end.
Fixpoint unravel (s : list nat) (k : nat) : list nat :=
  match s with
  | [] => []
  | n :: s' => (k / size s') :: unravel s' (k mod size s')
  end.

Definition reshape {A} (a : nd A) (s : list nat) : nd A :=
  mkNd s (fun idx => at_ a (unravel (shape a) (ravel s idx))).
Definition flatten {A} (a : nd A) : nd A := reshape a [size (shape a)].
Definition transpose {A} (a : nd A) : nd A :=
  mkNd (rev (shape a)) (fun idx => at_ a (rev idx)).

(** same shape and same entries *)
Definition nd_eq {A} (a b : nd A) : Prop :=
  shape a = shape b /\ forall idx, inb (shape a) idx -> at_ a idx = at_ b idx.

(** numpy.lib.stride_tricks.sliding_window_view with a window of full rank:
    ValueError when a window side exceeds the array side *)
Definition windows {A} (a : nd A) (w : list nat) : result (nd A) :=
  if forallb (fun p => Nat.leb (fst p) (snd p)) (combine w (shape a)) && Nat.eqb (length w) (length (shape a))
  then Ok (mkNd (map (fun p => snd p - fst p + 1) (combine w (shape a)) ++ w)
        (fun idx => at_ a (map (fun p => fst p + snd p)
                     (combine (firstn (length w) idx) (skipn (length w) idx)))))
  else Err ValueError.

(** a[:, 0] *)
Definition take_axis1_0 {A} (a : nd A) : nd A :=
  match shape a with
  | n :: _ :: s => mkNd (n :: s) (fun idx => match idx with i :: r => at_ a (i :: 0 :: r) | [] => at_ a [] end)
  | _ => a
  end.

(** * Lemmas *)
Lemma size_app s t : size (s ++ t) = size s * size t.
Proof. induction s; simpl; lia. Qed.
Lemma inb_length s idx : inb s idx -> length idx = length s.
Proof. revert idx; induction s; destruct idx; simpl; intros; try tauto; try lia. f_equal. apply IHs. tauto. Qed.
Lemma inb_size_pos s idx : inb s idx -> 0 < size s.
Proof.
  revert idx; induction s as [|n s IH]; destruct idx as [|i idx]; simpl; intros H; try tauto; try lia.
  destruct H as [H1 H2]. apply IH in H2. nia.
Qed.
Lemma ravel_lt s idx : inb s idx -> ravel s idx < size s.
Proof.
  revert idx; induction s as [|n s IH]; destruct idx as [|i idx]; simpl; intros H; try tauto; try lia.
  destruct H as [H1 H2]. apply IH in H2. nia.
Qed.
Lemma unravel_ravel s idx : inb s idx -> unravel s (ravel s idx) = idx.
Proof.
  revert idx; induction s as [|n s IH]; destruct idx as [|i idx]; simpl; intros H; try tauto.
  destruct H as [H1 H2]. pose proof (ravel_lt _ _ H2) as L.
  assert (Z : size s <> 0) by lia.
  rewrite (Nat.add_comm (i * size s)), Nat.div_add, Nat.div_small by lia.
  rewrite Nat.mod_add, Nat.mod_small by lia. rewrite IH; auto.
Qed.
Lemma unravel_inb s k : k < size s -> inb s (unravel s k).
Proof.
  revert k; induction s as [|n s IH]; simpl; intros k H; auto.
  assert (Z : size s <> 0) by nia. split.
  - apply Nat.div_lt_upper_bound; nia.
  - apply IH. now apply Nat.mod_upper_bound.
Qed.
Lemma ravel_unravel s k : k < size s -> ravel s (unravel s k) = k.
Proof.
  revert k; induction s as [|n s IH]; simpl; intros k H; [lia|].
  assert (Z : size s <> 0) by nia. rewrite IH by now apply Nat.mod_upper_bound.
  rewrite Nat.mul_comm. symmetry. apply Nat.div_mod. auto.
Qed.
Lemma inb_app s t i j : length i = length s -> (inb (s ++ t) (i ++ j) <-> inb s i /\ inb t j).
Proof.
  revert i; induction s as [|n s IH]; destruct i as [|x i]; simpl; intros H; try lia; [tauto|].
  rewrite IH by lia. tauto.
Qed.
Lemma ravel_app s t i j : length i = length s -> ravel (s ++ t) (i ++ j) = ravel s i * size t + ravel t j.
Proof.
  revert i; induction s as [|n s IH]; destruct i as [|x i]; simpl; intros H; try lia.
  rewrite IH, size_app by lia. lia.
Qed.
Lemma reshape_reshape {A} (a : nd A) s t : size s = size (shape a) -> size t = size s ->
  nd_eq (reshape (reshape a s) t) (reshape a t).
Proof.
  intros H1 H2. split; auto. simpl. intros idx H. rewrite ravel_unravel; auto.
  pose proof (ravel_lt _ _ H). lia.
Qed.
Lemma reshape_id {A} (a : nd A) : nd_eq (reshape a (shape a)) a.
Proof. split; auto. simpl. intros idx H. now rewrite unravel_ravel. Qed.
Lemma reshape_back {A} (a : nd A) s : size s = size (shape a) -> nd_eq (reshape (reshape a s) (shape a)) a.
Proof.
  intros H. split; auto. simpl. intros idx Hi. pose proof (ravel_lt _ _ Hi) as L.
  rewrite ravel_unravel by lia. now rewrite unravel_ravel.
Qed.
Lemma nd_eq_refl {A} (a : nd A) : nd_eq a a. Proof. split; auto. Qed.
Lemma nd_eq_sym {A} (a b : nd A) : nd_eq a b -> nd_eq b a.
Proof. intros [H1 H2]. split; auto. intros. symmetry. apply H2. now rewrite H1. Qed.
Lemma nd_eq_trans {A} (a b c : nd A) : nd_eq a b -> nd_eq b c -> nd_eq a c.
Proof. intros [H1 H2] [H3 H4]. split; [congruence|]. intros. rewrite H2, H4; auto. now rewrite <- H1. Qed.
