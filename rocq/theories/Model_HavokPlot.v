(** HAVOK.plot_summary: what is drawn in its panels, from the fitted model and the arguments. Models pydmd/havok.py:605-779.
    Simplifications: the threshold and the jump distance are given (their defaults are compute_threshold, see Model_Havok, and
    int(0.5 / dt)); of a threshold only the decision |v| > threshold is used; the picture of the operator, titles, ticks, colours
    and files are left out; the numbers are of any type. *)
From Coq Require Import List ZArith Bool Arith.
From Verif Require Import Py Model_Havok.
Import ListNotations.
Set Implicit Arguments.

Section Plot.
Variable T : Type.
(** np.abs(v) > forcing_threshold (havok.py:677) *)
Variable above : T -> bool.

(** The fitted model: times and the first row of the data, the columns of the linear embeddings, of the forcing and of the
    reconstructed embeddings (havok.py:696, 722, 675, 754, 767). *)
Record fitted := Fitted { ft_time : list T; ft_data : list T; ft_lin : list (list T); ft_forc : list (list T); ft_rec : list (list T) }.
(** l[:k] (havok.py:675, 696, 721-722, 743, 754, 767) *)
Definition upto (k : Z) (l : list T) : list T :=
  firstn (if (0 <=? k)%Z then Z.to_nat k else length l - Z.to_nat (- k)) l.
(** l[a:b] for indexes that are not negative (havok.py:735, 759) *)
Definition between (a b : Z) (l : list T) : list T := firstn (Z.to_nat b - Z.to_nat a) (skipn (Z.to_nat a) l).
(** l[i] for an integer, counted from the end if negative (havok.py:675, 722, 743, 754, 759, 767) *)
Definition pick (A : Type) (i : Z) (l : list A) : result A :=
  match nth_error l (Z.to_nat (if (0 <=? i)%Z then i else (Z.of_nat (length l) + i)%Z)) with
  | Some x => if ((- Z.of_nat (length l)) <=? i)%Z then Ok x else Err IndexError
  | None => Err IndexError
  end.
(** a list comprehension that may raise (havok.py:753-755, 758-760, 766-768) *)
Fixpoint each (A B : Type) (f : A -> result B) (l : list A) : result (list B) :=
  match l with [] => Ok [] | x :: r => let! y := f x in let! s := each f r in Ok (y :: s) end.
(** ax.plot(x, y): the lengths must agree (havok.py:696, 720-724, 730, 735) *)
Definition curve (x y : list T) : result (list T * list T) :=
  if Nat.eqb (length x) (length y) then Ok (x, y) else Err ValueError.

(** true_switch_indices: None, an array of integers, or another sequence of integers, for which the comparison with a number raises
    (havok.py:737-740). *)
Inductive switches := NoSwitch | SwArray (l : list Z) | SwOther.
(** the part of the indexes before the first one outside (havok.py:739-741) *)
Fixpoint before_outside (k : Z) (l : list Z) : list Z :=
  match l with [] => [] | x :: r => if (k <=? x)%Z then [] else x :: before_outside k r end.
(** np.arange(num_plot)[mask] (havok.py:676-678): the lengths must agree *)
Definition active (k : Z) (forcing : list T) : result (list Z) :=
  if Nat.eqb (Z.to_nat k) (length forcing)
  then Ok (map fst (filter (fun p => above (snd p)) (combine (map Z.of_nat (seq 0 (length forcing))) forcing)))
  else Err IndexError.

(** What is drawn: the time series, the first linear embedding, the forcing, its active pieces, the true switches, the attractor
    with its active pieces, the reconstruction. *)
Record picture := Picture {
  p_series : list T * list T; p_linear : list T * list T; p_forcing : list T * list T; p_active : list (list T * list T);
  p_stars : option (list T); p_attractor : list (list T); p_red : list (list (list T)); p_rec : list (list T) }.
(** havok.py:655-769 *)
Definition plot_summary (m : option fitted) (num_plot : option Z) (index_linear : list Z) (index_forcing : Z) (jump : Z) (sw : switches)
    : result picture :=
  match m with
  | None => Err ValueError
  | Some f =>
      let! fc := pick index_forcing (ft_forc f) in
      let k := match num_plot with Some k => k | None => Z.of_nat (length fc) end in
      let forcing := upto k fc in
      let! act := active k forcing in
      let! sl := index_slices act jump in
      let time := upto k (ft_time f) in
      let! c1 := curve time (upto k (ft_data f)) in
      let! l0 := pick 0 (ft_lin f) in
      let! c2 := curve time (upto k l0) in
      let! c3 := curve time forcing in
      let! reds := each (fun s => curve (between (fst s) (snd s) (ft_time f)) (between (fst s) (snd s) forcing)) sl in
      let! stars := match sw with
                    | NoSwitch => Ok None
                    | SwArray l => let! t := each (fun i => pick i time) (before_outside k l) in Ok (Some t)
                    | SwOther => Err TypeError
                    end in
      let! att := each (fun i => let! c := pick i (ft_lin f) in Ok (upto k c)) index_linear in
      let! red := each (fun s => each (fun i => let! c := pick i (ft_lin f) in Ok (between (fst s) (snd s) c)) index_linear) sl in
      let! rec := each (fun i => let! c := pick i (ft_rec f) in Ok (upto k c)) index_linear in
      Ok (Picture c1 c2 c3 reds stars att red rec)
  end.
End Plot.
