(** * Python / NumPy vocabulary used by every model file

    Nothing in this file is specific to PyDMD: it fixes the meaning of the
    Python and NumPy constructs that the modelled functions use (exceptions,
    index normalisation, slices, boolean masks, in-place assignment).
    The meanings are those of CPython's and NumPy's documentation. *)

From Coq Require Import List ZArith Lia Bool.
Import ListNotations.

(** Exceptions that the modelled code can raise. *)
Inductive exn : Type :=
| ValueError | RuntimeError | IndexError | KeyError | TypeError
| AttributeError | NotImplementedError | UnboundLocalError
| ZeroDivisionError | LinAlgError | NameError.

(** A Python evaluation yields a value or raises. *)
Inductive result (A : Type) : Type :=
| Ok : A -> result A
| Err : exn -> result A.
Arguments Ok {A} _.
Arguments Err {A} _.

Definition bind {A B} (r : result A) (f : A -> result B) : result B :=
  match r with Ok a => f a | Err e => Err e end.

Notation "'let!' x ':=' r 'in' k" := (bind r (fun x => k))
  (at level 200, x pattern, right associativity).

Definition is_ok {A} (r : result A) : bool :=
  match r with Ok _ => true | Err _ => false end.

(** Python's treatment of an integer index [z] on a sequence of length [n]:
    [-n <= z < n], negative values count from the end. *)
Definition norm_index (n : nat) (z : Z) : option nat :=
  if (0 <=? z)%Z && (z <? Z.of_nat n)%Z then Some (Z.to_nat z)
  else if (- Z.of_nat n <=? z)%Z && (z <? 0)%Z
       then Some (Z.to_nat (z + Z.of_nat n))
       else None.

(** Python slices: [slice.indices(n)] of CPython (Objects/sliceobject.c,
    PySlice_AdjustIndices).  [None] is an absent bound. *)
Record pyslice := mkSlice {
  sl_start : option Z; sl_stop : option Z; sl_step : option Z }.

Definition clip (lo hi z : Z) : Z := Z.max lo (Z.min hi z).

Definition slice_bound (n : Z) (step : Z) (b : option Z) (dflt : Z) : Z :=
  match b with
  | None => dflt
  | Some z =>
      let z' := (if z <? 0 then z + n else z)%Z in
      if (0 <? step)%Z then clip 0 n z' else clip (-1) (n - 1) z'
  end.

Definition slice_step (s : pyslice) : Z :=
  match sl_step s with None => 1%Z | Some z => z end.
Definition slice_lo (n : nat) (s : pyslice) : Z :=
  slice_bound (Z.of_nat n) (slice_step s) (sl_start s)
    (if (0 <? slice_step s)%Z then 0 else Z.of_nat n - 1)%Z.
Definition slice_hi (n : nat) (s : pyslice) : Z :=
  slice_bound (Z.of_nat n) (slice_step s) (sl_stop s)
    (if (0 <? slice_step s)%Z then Z.of_nat n else -1)%Z.

(** number of positions visited by the slice *)
Definition slice_len (n : nat) (s : pyslice) : nat :=
  let st := slice_step s in
  let lo := slice_lo n s in let hi := slice_hi n s in
  if (0 <? st)%Z
  then (if (lo <? hi)%Z then Z.to_nat ((hi - lo - 1) / st + 1) else 0)
  else (if (hi <? lo)%Z then Z.to_nat ((lo - hi - 1) / (- st) + 1) else 0).

(** positions visited, in visiting order; a zero step raises ValueError *)
Definition slice_positions (n : nat) (s : pyslice) : result (list nat) :=
  if (slice_step s =? 0)%Z then Err ValueError
  else Ok (map (fun k => Z.to_nat (slice_lo n s + Z.of_nat k * slice_step s))
               (seq 0 (slice_len n s))).

(** ** Boolean masks *)

(** NumPy [a[mask]]: the entries at the positions where [mask] is True. *)
Fixpoint sel {A} (mask : list bool) (l : list A) : list A :=
  match mask, l with
  | true :: m, x :: t => x :: sel m t
  | false :: m, _ :: t => sel m t
  | _, _ => []
  end.

(** NumPy [a[mask] = v]: entries of [v] go, in order, to the True positions. *)
Fixpoint unsel {A} (mask : list bool) (l v : list A) : list A :=
  match mask, l with
  | true :: m, x :: t =>
      match v with
      | y :: v' => y :: unsel m t v'
      | [] => x :: unsel m t []
      end
  | false :: m, x :: t => x :: unsel m t v
  | _, _ => l
  end.

Definition count (mask : list bool) : nat := length (filter (fun b => b) mask).

(** boolean index: NumPy raises IndexError when sizes differ *)
Definition np_mask_get {A} (mask : list bool) (l : list A) : result (list A) :=
  if Nat.eqb (length mask) (length l) then Ok (sel mask l) else Err IndexError.

(** boolean assignment: IndexError when mask and array sizes differ,
    ValueError when the number of values does not fit *)
Definition np_mask_set {A} (mask : list bool) (l v : list A) : result (list A) :=
  if Nat.eqb (length mask) (length l) then
    if Nat.eqb (count mask) (length v) then Ok (unsel mask l v)
    else Err ValueError
  else Err IndexError.

(** [l[i] = v] for a valid position [i]; other positions leave [l] alone *)
Fixpoint upd {A} (l : list A) (i : nat) (v : A) : list A :=
  match l, i with
  | [], _ => []
  | _ :: t, O => v :: t
  | x :: t, S j => x :: upd t j v
  end.

(** index in the full list of the [i]-th True position *)
Fixpoint true_pos (mask : list bool) (i : nat) : nat :=
  match mask with
  | [] => 0
  | true :: m => match i with O => 0 | S j => S (true_pos m j) end
  | false :: m => S (true_pos m i)
  end.

(** ** Facts *)

Lemma length_upd {A} (l : list A) i v : length (upd l i v) = length l.
Proof. revert i; induction l as [|x l IH]; intros [|i]; simpl; auto. Qed.

Lemma nth_error_upd {A} (l : list A) i j v :
  nth_error (upd l i v) j =
  if Nat.eqb i j then (if Nat.ltb i (length l) then Some v else None)
  else nth_error l j.
Proof.
  revert i j; induction l as [|x l IH]; intros [|i] [|j]; simpl; auto.
  - destruct (Nat.eqb i j); auto.
  - rewrite IH. destruct (Nat.eqb i j); auto.
Qed.

Lemma nth_error_upd_eq {A} (l : list A) i v :
  i < length l -> nth_error (upd l i v) i = Some v.
Proof.
  intros H. rewrite nth_error_upd, Nat.eqb_refl.
  apply Nat.ltb_lt in H; now rewrite H.
Qed.

Lemma nth_error_upd_neq {A} (l : list A) i j v :
  i <> j -> nth_error (upd l i v) j = nth_error l j.
Proof.
  intros H. rewrite nth_error_upd. apply Nat.eqb_neq in H; now rewrite H.
Qed.

Lemma map_upd {A B} (f : A -> B) l i v :
  map f (upd l i v) = upd (map f l) i (f v).
Proof. revert i; induction l; intros [|i]; simpl; f_equal; auto. Qed.

Lemma map_upd_same {A B} (f : A -> B) l i v a :
  nth_error l i = Some a -> f v = f a -> map f (upd l i v) = map f l.
Proof.
  revert i; induction l; intros [|i]; simpl; intros H E; try discriminate; auto.
  - inversion H; subst. now rewrite E.
  - f_equal; eauto.
Qed.

Lemma count_cons b m : count (b :: m) = (if b then 1 else 0) + count m.
Proof. unfold count; destruct b; reflexivity. Qed.

Lemma count_le m : count m <= length m.
Proof. induction m as [|b m IH]; [auto|rewrite count_cons; destruct b; simpl; lia]. Qed.

Lemma length_sel {A} mask (l : list A) :
  length mask = length l -> length (sel mask l) = count mask.
Proof.
  revert l; induction mask as [|b m IH]; intros [|x l]; simpl; try discriminate; auto.
  intros H; injection H as H. rewrite count_cons.
  destruct b; simpl; rewrite IH by assumption; auto.
Qed.

Lemma length_unsel {A} mask (l v : list A) : length (unsel mask l v) = length l.
Proof.
  revert l v; induction mask as [|b m IH]; intros [|x l] v; simpl; auto.
  - destruct b; auto.
  - destruct b; [destruct v|]; simpl; rewrite IH; auto.
Qed.

Lemma sel_unsel {A} mask (l v : list A) :
  length mask = length l -> length v = count mask -> sel mask (unsel mask l v) = v.
Proof.
  revert l v; induction mask as [|b m IH]; intros [|x l] v; simpl; try discriminate.
  - destruct v; [auto|discriminate].
  - rewrite count_cons. intros H Hv; injection H as H. destruct b.
    + destruct v as [|y v]; [discriminate|]. injection Hv as Hv. simpl. f_equal; auto.
    + simpl. auto.
Qed.

Lemma unsel_sel {A} mask (l : list A) :
  length mask = length l -> unsel mask l (sel mask l) = l.
Proof.
  revert l; induction mask as [|b m IH]; intros [|x l]; simpl; try discriminate; auto.
  intros H; injection H as H. destruct b; f_equal; auto.
Qed.

Lemma unsel_nil {A} mask (l : list A) : unsel mask l [] = l.
Proof.
  revert l; induction mask as [|b m IH]; intros [|x l]; simpl; auto;
    destruct b; simpl; auto; rewrite IH; auto.
Qed.

Lemma sel_repeat_true {A} (l : list A) : sel (repeat true (length l)) l = l.
Proof. induction l; simpl; f_equal; auto. Qed.

Lemma unsel_repeat_true {A} n (l v : list A) :
  length l = n -> length v = n -> unsel (repeat true n) l v = v.
Proof.
  revert l v; induction n as [|n IH]; intros [|x l] [|y v]; simpl; try discriminate; auto.
  intros H1 H2. f_equal; auto.
Qed.

Lemma sel_map {A B} (f : A -> B) mask l : sel mask (map f l) = map f (sel mask l).
Proof.
  revert l; induction mask as [|b m IH]; intros [|x l]; simpl; auto; destruct b; auto.
  simpl; f_equal; auto.
Qed.

Lemma count_repeat_true n : count (repeat true n) = n.
Proof. induction n; simpl; auto. rewrite count_cons; simpl; auto. Qed.

Lemma nth_error_sel {A} mask (l : list A) i :
  length mask = length l -> i < count mask ->
  nth_error (sel mask l) i = nth_error l (true_pos mask i).
Proof.
  revert l i; induction mask as [|b m IH]; intros [|x l] i; simpl; try discriminate.
  - unfold count; simpl; lia.
  - intros H; injection H as H. rewrite count_cons. destruct b; intros Hi.
    + destruct i as [|i]; simpl; auto. apply IH; auto; lia.
    + apply IH; auto.
Qed.

Lemma true_pos_lt mask i : i < count mask -> true_pos mask i < length mask.
Proof.
  revert i; induction mask as [|b m IH]; intros i.
  - unfold count; simpl; lia.
  - rewrite count_cons. simpl. destruct b.
    + destruct i; [lia|]. intros H. specialize (IH i). lia.
    + intros H. specialize (IH i). lia.
Qed.

Lemma true_pos_true mask i : i < count mask -> nth_error mask (true_pos mask i) = Some true.
Proof.
  revert i; induction mask as [|b m IH]; intros i.
  - unfold count; simpl; lia.
  - rewrite count_cons. simpl. destruct b.
    + destruct i; simpl; auto. intros H. apply IH; lia.
    + intros H. apply IH; lia.
Qed.

Lemma upd_sel {A} mask (l : list A) i v :
  length mask = length l -> i < count mask ->
  upd (sel mask l) i v = sel mask (upd l (true_pos mask i) v).
Proof.
  revert l i; induction mask as [|b m IH]; intros [|x l] i; simpl; try discriminate.
  - unfold count; simpl; lia.
  - intros H; injection H as H. rewrite count_cons. destruct b; intros Hi.
    + destruct i as [|i]; simpl; auto. f_equal. apply IH; auto; lia.
    + simpl. apply IH; auto.
Qed.

Lemma unsel_upd {A} mask (l v : list A) i x :
  length mask = length l -> length v = count mask -> i < count mask ->
  unsel mask l (upd v i x) = upd (unsel mask l v) (true_pos mask i) x.
Proof.
  revert l v i; induction mask as [|b m IH]; intros [|y l] v i; simpl; try discriminate.
  - unfold count; simpl; lia.
  - rewrite count_cons. intros H Hv; injection H as H. destruct b; intros Hi.
    + destruct v as [|z v]; [discriminate|]. injection Hv as Hv.
      destruct i as [|i]; simpl; auto. f_equal. apply IH; auto; lia.
    + simpl. f_equal. apply IH; auto.
Qed.

Lemma sel_ext {A} mask (l l' : list A) :
  length l = length l' ->
  (forall i, nth_error mask i = Some true -> nth_error l i = nth_error l' i) ->
  sel mask l = sel mask l'.
Proof.
  revert l l'; induction mask as [|b m IH]; intros [|x l] [|x' l']; simpl; try discriminate; auto.
  intros H E; injection H as H.
  assert (IH' : sel m l = sel m l').
  { apply IH; auto. intros i Hi. apply (E (S i)); auto. }
  destruct b; auto. f_equal; auto.
  specialize (E 0 eq_refl); simpl in E; congruence.
Qed.

Lemma np_mask_get_ok {A} mask (l : list A) :
  length mask = length l -> np_mask_get mask l = Ok (sel mask l).
Proof. intros H; unfold np_mask_get. now rewrite H, Nat.eqb_refl. Qed.

Lemma np_mask_set_ok {A} mask (l v : list A) :
  length mask = length l -> length v = count mask ->
  np_mask_set mask l v = Ok (unsel mask l v).
Proof. intros H Hv; unfold np_mask_set. now rewrite H, Hv, !Nat.eqb_refl. Qed.

Lemma norm_index_spec n z i :
  norm_index n z = Some i <->
  i < n /\ (z = Z.of_nat i \/ z = (Z.of_nat i - Z.of_nat n)%Z).
Proof.
  unfold norm_index.
  destruct (Z.leb_spec 0 z); destruct (Z.ltb_spec z (Z.of_nat n));
  destruct (Z.leb_spec (- Z.of_nat n) z); destruct (Z.ltb_spec z 0); simpl;
  (split; [intros H'; try discriminate; injection H' as <-; lia
          | intros [? [?|?]]; first [f_equal; lia | lia | idtac]]).
Qed.

Lemma norm_index_lt n z i : norm_index n z = Some i -> i < n.
Proof. intros H. apply norm_index_spec in H. tauto. Qed.
