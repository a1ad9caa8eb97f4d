(** * HAVOK (havok.py): Hankel embedding, active slices, threshold *)
From Coq Require Import List Arith ZArith QArith Bool.
From Verif Require Import Py.
Import ListNotations.
Set Implicit Arguments.
Local Open Scope nat_scope.

(** ** Matrices written block by block; [None] is memory that np.empty did not initialise *)
Section Embed.
Variable V : Type.
(** assignment into a float array: the imaginary part is discarded *)
Variable cast : V -> V.
(** havok.py:305, 327 *)
Record mat := Mat { m_rows : nat; m_cols : nat; m_at : nat -> nat -> option V }.
(** np.empty, havok.py:305, 327 *)
Definition empty (r c : nat) : mat := Mat r c (fun _ _ => None).
(** [H[r0 : r0 + k] = f] and [X[:, c0 : c0 + k] = f]. havok.py:307 *)
Definition write_rows (H : mat) (r0 k : nat) (f : nat -> nat -> option V) : mat :=
  Mat (m_rows H) (m_cols H)
    (fun r j => if (r0 <=? r) && (r <? r0 + k) then option_map cast (f (r - r0) j) else m_at H r j).
(** havok.py:329 *)
Definition write_cols (X : mat) (c0 k : nat) (f : nat -> nat -> option V) : mat :=
  Mat (m_rows X) (m_cols X)
    (fun i j => if (c0 <=? j) && (j <? c0 + k) then option_map cast (f i (j - c0)) else m_at X i j).

(** what a user can pass. havok.py:289-293 *)
Inductive hv_input :=
| HV1 (m : nat) (f : nat -> V) | HV2 (n m : nat) (f : nat -> nat -> V) | HVMore | HVOther.

(** ** hankel (havok.py:279-309).  Simplification: delays and lag are not negative. *)
Definition hankel_loop (delays lag n hm : nat) (f : nat -> nat -> V) : mat :=
  fold_left (fun H i => write_rows H (i * n) n (fun i' j => Some (f i' (i * lag + j))))
            (seq 0 delays) (empty (n * delays) hm).
(** havok.py:289-309 *)
Definition hankel (delays lag : nat) (X : hv_input) : result mat :=
  let run n m f :=
    let m_min := (Z.of_nat lag * (Z.of_nat delays - 1) + 1)%Z in
    if (Z.of_nat m <? m_min)%Z then Err ValueError
    else let hm := Z.to_nat (Z.of_nat m - (Z.of_nat delays - 1) * Z.of_nat lag) in
         Ok (hankel_loop delays lag n hm f) in
  match X with
  | HV1 m f => run 1%nat m (fun _ j => f j)
  | HV2 n m f => run n m f
  | HVMore | HVOther => Err ValueError
  end.

(** ** dehankel (havok.py:311-331); [d_shape] is the shape after np.squeeze, entries keep two indexes *)
Record dehankeled := Dehankeled { d_shape : list nat; d_mat : mat }.
(** havok.py:321-331 *)
Definition dehankel (delays lag : nat) (H : option mat) : result dehankeled :=
  match H with
  | None => Err ValueError                      (* not a 2-D array *)
  | Some H =>
      if delays =? 0 then Err ZeroDivisionError
      else
        let n := m_rows H / delays in
        let m := m_cols H + (delays - 1) * lag in
        let X := fold_left (fun X i => write_cols X (i * lag) (m_cols H) (fun i' j => m_at H (i * n + i') j))
                           (seq 0 delays) (empty n m) in
        Ok (Dehankeled (filter (fun d => negb (d =? 1)) [n; m]) X)
  end.
End Embed.
Arguments HVMore {V}. Arguments HVOther {V}.

(** ** _get_index_slices (havok.py:815-832) *)
(** the consecutive pairs of [x] *)
Fixpoint pairs (x : list Z) : list (Z * Z) :=
  match x with
  | a :: ((b :: _) as t) => (a, b) :: pairs t
  | _ => []
  end.
(** havok.py:827 *)
Definition is_jump (d : Z) (p : Z * Z) : bool := (d <? snd p - fst p)%Z.
(** havok.py:827-832 *)
Definition index_slices (x : list Z) (d : Z) : result (list (Z * Z)) :=
  match x with
  | [] => Err IndexError
  | a :: _ =>
      let jumps := filter (is_jump d) (pairs x) in
      Ok (combine (a :: map snd jumps) (map fst jumps ++ [last x a]))
  end.

(** ** compute_threshold (havok.py:546-573), from the histogram on: bin centres [hx], fractions [hy].
    Simplification: the histogram and the Gaussian are those of NumPy and SciPy; the plot is not modelled.
    An integer [p] calls an array (sgn(a[:-1])) and raises TypeError. *)
Inductive p_arg := PInt (z : Z) | PFloat (q : Q).
(** np.cumsum, havok.py:575 *)
Fixpoint cumsum_from (s : Q) (l : list Q) : list Q :=
  match l with [] => [] | x :: t => (s + x)%Q :: cumsum_from (s + x)%Q t end.
(** havok.py:575 *)
Definition cumsum := cumsum_from 0%Q.
(** havok.py:575 *)
Definition Qltb (a b : Q) : bool := negb (Qle_bool b a).
(** np.where(...)[0][0], havok.py:575 *)
Fixpoint first_true (l : list bool) : option nat :=
  match l with [] => None | b :: t => if b then Some 0%nat else option_map S (first_true t) end.
(** np.abs, havok.py:569-570 *)
Definition Qabs' (x : Q) : Q := if Qltb x 0%Q then (- x)%Q else x.
(** havok.py:564-577 *)
Definition threshold (hx hy : list Q) (p : p_arg) : result Q :=
  match p with
  | PInt _ => Err TypeError
  | PFloat p =>
      match first_true (map (fun c => Qltb ((1#2) * p)%Q c) (cumsum hy)),
            first_true (map (fun c => Qltb (1 - c)%Q ((1#2) * p)%Q) (cumsum hy)) with
      | Some i1, Some i2 => Ok ((1#2) * (Qabs' (nth i1 hx 0%Q) + Qabs' (nth i2 hx 0%Q)))%Q
      | _, _ => Err IndexError
      end
  end.
