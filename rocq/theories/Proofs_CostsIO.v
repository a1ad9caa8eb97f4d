(** * Proofs about Model_CostsIO.v *)
From Coq Require Import QArith String Ascii List.
From mathcomp Require Import all_ssreflect all_fingroup all_algebra.
From Verif Require Import Py LinAlg Model_CostsWin Model_Costs Model_MrCosts Model_CostsIO Spec_CostsIO.
From Verif Require Model_Utils.
Set Implicit Arguments. Unset Strict Implicit. Unset Printing Implicit Defensive.

Definition mark : string := "pydmd_kwargs__".
Lemma remove_none pat s : contains pat s = false -> remove pat 0 s = s.
Proof.
elim: s => // a s IH H; have [P Cs] : String.prefix pat (String a s) = false /\ contains pat s = false.
  by move: H; rewrite /contains -/contains; case: (String.prefix _ _).
by rewrite /remove -/remove P IH.
Qed.
Lemma remove_mark k : contains mark k = false -> remove mark 0 (mark ++ k) = k.
Proof.
move=> H; have E : remove mark 0 (mark ++ k) = remove mark 0 k by case: k {H}.
by rewrite E remove_none.
Qed.
Lemma contains_mark k : contains "pydmd_kwargs" (mark ++ k) = true. Proof. by case: k. Qed.

(** the value that comes back *)
Definition back (k : string) (v : pyval) : result pyval :=
  let! u := sanitize v in if String.eqb k "eig_constraints" then to_set (unsanitize u) else Ok (unsanitize u).
Fixpoint all_back (kw : seq (string * pyval)) : result (seq (string * pyval)) :=
  match kw with
  | [::] => Ok [::]
  | (k, v) :: kw' => let! u := back k v in let! rest := all_back kw' in Ok ((k, u) :: rest)
  end.

Lemma put_new k v d : ~ In k (List.map fst d) -> put k v d = d ++ [:: (k, v)].
Proof.
elim: d => //= -[k' v'] d IH /= H; case: String.eqb_spec => [E|_]; first by case: H; left.
by rewrite IH // => I; apply: H; right.
Qed.
Lemma loadP kw l acc tr : store kw = Ok l -> (forall k v, In (k, v) kw -> contains mark k = false) ->
  List.NoDup (List.map fst acc ++ List.map fst kw) ->
  load l acc tr = (let! vs := all_back kw in Ok (acc ++ vs, tr)).
Proof.
elim: kw l acc => [|[k v] kw IH] l acc /=; first by move=> [<-] _ _; rewrite cats0.
case Ev: (sanitize v) => [u|] //; cbn [bind]; case Es: (store kw) => [l'|] //; cbn [bind] => -[<-] Nm Nd.
rewrite /load -/load contains_mark remove_mark; last by apply: (Nm k v); left.
rewrite /back Ev; cbn [bind]; set w := (if _ then _ else _); case: w => [w|e] //; cbn [bind].
have Nk : ~ In k (List.map fst acc).
  by move=> I; have := NoDup_remove_2 _ _ _ Nd; apply; apply: in_or_app; left.
rewrite put_new // (IH l') //.
- by case: (all_back kw) => //= vs; rewrite -catA.
- by move=> k' v' I; apply: (Nm k' v'); right.
- have -> : List.map fst (acc ++ [:: (k, w)]) = List.map fst acc ++ [:: k].
    by elim: (acc) => //= p d ->.
  by rewrite -catA.
Qed.

Lemma backP k v u : back k v = Ok u -> if String.eqb k "eig_constraints" then constraints_back v u else comes_back v u.
Proof.
rewrite /back; case: (String.eqb k _).
  case: v => [|b|q|s|a|l|l|l|[s|]] //=.
  - by case: String.eqb_spec => //= N [<-]; constructor.
  - by case: ifP => // _ [<-]; constructor.
  - by case: ifP => // _ [<-]; constructor.
  - by case: ifP => // _ [<-]; constructor.
  - by move=> [<-]; exact: ConFun.
case: v => [|b|q|s|a|l|l|l|[s|]] /=; try (by move=> [<-]; constructor); try by [].
by case: String.eqb_spec => [->|N] [<-]; [exact: BackNone | apply: BackSame => // -[]].
Qed.
Lemma all_backP kw vs : all_back kw = Ok vs -> List.map fst vs = List.map fst kw /\
  forall k v, In (k, v) kw -> exists u, In (k, u) vs /\ back k v = Ok u.
Proof.
elim: kw vs => [|[k v] kw IH] vs /=; first by move=> [<-].
case Eb: (back k v) => [u|] //; cbn [bind]; case Ea: (all_back kw) => [rest|] //; cbn [bind] => -[<-].
have [Em H] := IH rest Ea; split; first by rewrite /= Em.
move=> k' v' [[<- <-]|I]; first by exists u; split=> //; left.
by have [u' [I' E']] := H k' v' I; exists u'; split=> //; right.
Qed.
