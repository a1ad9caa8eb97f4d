From Coq Require Import QArith.
From mathcomp Require Import all_ssreflect all_fingroup all_algebra.
From Verif Require Import Py LinAlg Model_Operator Model_BOP Model_CostsWin Model_Costs Spec_Costs Spec_CostsWin.
From Verif Require Import Proofs_CostsWin Proofs_Costs.
From Verif Require Model_Utils.
Set Implicit Arguments. Unset Strict Implicit. Unset Printing Implicit Defensive.
Import Order.TTheory GRing.Theory Num.Theory.
Local Open Scope ring_scope.

Lemma seq_iota a m : List.seq a m = iota a m.
Proof. by elim: m a => //= m IH a; rewrite IH. Qed.

Section FitP.
Variable C : numClosedFieldType.
Variable np : numpy C.
Variable x : ext C.
Variable y : cext C.

Section Loop.
Variables (fuel n : nat) (g : ccfg C) (kw : kwargs C n) (sharp : C) (T : nat) (X : 'M[C]_(n, T)) (t : 'rV[C]_T) (w pre : nat)
  (rk : Model_Utils.rank_arg) (alpha : option {r & 'rV[C]_r}).

(** the data given to BOPDMD for the window [l] *)
Definition input_of (l : seq nat) : 'M[C]_(n, w) := winput y sharp (cut X w l).
Definition times_of (l : seq nat) : 'rV[C]_w := wtime (cut t w l).

(** what is stored for the window [l] when BOPDMD starts in state [d] *)
Definition stores (d : bop C n) (l : seq nat) (r : wres C n w) : Prop :=
  exists d1, fit_window np x fuel (prepare np g kw (input_of l) rk d) (input_of l) (times_of l) = Some (d1, Ok tt) /\
  exists q r' (u : bop_op C n q r'), b_op d1 = Some (Some (existT _ q (existT _ r' u))) /\
    r = WRes (bo_modes u) (bo_eigs u) (bo_b u) (wmean (cut X w l)) (cut t w l) /\ (r' <= pre)%N.

Lemma loop_stores ls d rs : fit_loop np x y fuel g kw sharp X t w pre rk alpha ls d = Some (Ok rs) ->
  size rs = size ls /\ forall k, (k < size ls)%N -> forall r0,
    exists d', stores d' (nth [::] ls k) (nth r0 rs k) /\
      (k = 0%N -> d' = d) /\
      (forall k', k = k'.+1 -> exists d'' d1 q r' (u : bop_op C n q r'), stores d'' (nth [::] ls k') (nth r0 rs k') /\
         fit_window np x fuel (prepare np g kw (input_of (nth [::] ls k')) rk d'') (input_of (nth [::] ls k')) (times_of (nth [::] ls k'))
           = Some (d1, Ok tt) /\ b_op d1 = Some (Some (existT _ q (existT _ r' u))) /\ d' = after g alpha d1 (bo_eigs u)).
Proof.
elim: ls d rs => [|l ls IH] d rs; first by move=> [<-].
rewrite /= -/(input_of l) -/(times_of l).
case E: (@fit_window _ np x fuel n w (prepare np g kw (input_of l) rk d) (input_of l) (times_of l)) => [[d1 [[]|]]|] //.
case O: (b_op d1) => [[[q [r u]]|]|] //; case: ltnP => // L.
case F: (fit_loop np x y fuel g kw sharp X t w pre rk alpha ls (after g alpha d1 (bo_eigs u))) => [[t'|]|] // [<-].
have [S H] := IH _ _ F; split; first by rewrite /= S.
have St : stores d l (WRes (bo_modes u) (bo_eigs u) (bo_b u) (wmean (cut X w l)) (cut t w l)).
  by exists d1; split=> //; exists q, r, u.
move=> [|k] K r0.
  by exists d; split.
have [d' [Sd [Z Nx]]] := H k K r0; exists d'; split=> //; split=> // k' [Ek]; rewrite -{k'}Ek.
case: k K Sd Z Nx => [|k] K Sd Z Nx; last exact: Nx.
by rewrite (Z erefl); exists d, d1, q, r, u.
Qed.
End Loop.

(** ** After a successful fit *)
(** the windows of the object are [ls], its arrays are [f] *)
Record fit_state n (c : costs C n) (ls : seq (seq nat)) (f : fitted C n) : Prop := FitState {
  fs_windows : all_windows (c_win c) = Ok ls;
  fs_fit : c_fit c = Some f;
  fs_width : all (fun l => size l == f_w f) ls;
  fs_size : size ls = size (f_res f);
  fs_rank : forall k r0, (k < size ls)%N -> (wr_r (nth r0 (f_res f) k) <= f_pre f)%N }.


Local Notation "# n" := (BinInt.Z.of_nat n) (at level 5, format "# n").

Lemma all_windows_listed s (T w d : nat) : windows_of s (listed T w d) -> all_windows s = Ok (listed T w d).
Proof.
move=> [N H].
have E : [seq nth [::] (listed T w d) k | k <- iota 0 (size (listed T w d))] = listed T w d by rewrite -[RHS](mkseq_nth [::]).
rewrite -E; apply: (all_windowsE (N := size (listed T w d))) => // k K; apply: H.
elim: (listed T w d) k K => // l ls IH [|k] //= K; exact: IH.
Qed.
Lemma listed_size T w d : all (fun l => size l == w) (listed T w d).
Proof. by apply/allP => l /mapP[k _ ->]; rewrite seq_iota size_iota. Qed.
Lemma listed_uniq T w d : all uniq (listed T w d).
Proof. by apply/allP => l /mapP[k _ ->]; rewrite seq_iota iota_uniq. Qed.

Theorem fit_stateP fuel n (c : costs C n) kw sharp T (X : 'M[C]_(n, T)) m (t : 'rV[C]_m) (w d : nat) c' kw' :
  (0 < w)%N -> (0 < d)%N -> rounds (y_fl y) #T #w ->
  fit np x y fuel c kw sharp X t #w #d = Some (c', kw', Ok tt) ->
  [/\ (w <= T)%N, m = T & exists f, fit_state c' (listed T w d) f].
Proof.
move=> w0 d0 R; rewrite /fit.
case Ew: (fit_windows _ _ _ _ _ _ _) => [s1 [[]|e]] //; case: (@eqP _ m T) => // Em.
have wT : (w <= T)%N.
  rewrite leqNgt; apply/negP => L; move: Ew; rewrite -Em /fit_windows BinInt.Z.eqb_refl /= /build_windows.
  have -> : BinInt.Z.ltb #m #w = true by apply/BinInt.Z.ltb_lt/Znat.inj_lt; apply/ssrnat.ltP; rewrite Em.
  by do 2 case: ifP => // _.
case: (allocate _ _ _ _) => // -[[g kw1] pre]; case: (initialization _ _) => // alpha.
have Lw : windows_of s1 (listed T w d).
  apply: (@listed_of (y_fl y) (c_win c) #n) => //; try exact/ssrnat.leP.
  by rewrite -Ew Em.
rewrite (all_windows_listed Lw); move: (BinInt.Z.to_nat #w) (Znat.Nat2Z.id w) => w' ->; case: (cc_rank g) => // rk.
case F: (fit_loop _ _ _ _ _ _ _ _ _ _ _ _ _ _ _) => [[rs|]|] // [<- _].
split=> //; exists (Fitted pre rs); have [S H] := loop_stores F; split=> //=.
- exact: all_windows_listed.
- exact: listed_size.
- move=> k r0 K; have [d' [[d1 [_ [q [r' [u [_ [-> L]]]]]]] _]] := H k K r0; exact: L.
Qed.
End FitP.
