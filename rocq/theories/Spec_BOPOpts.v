(** What the documentation says about the options of the variable projection, by name. *)
From Coq Require Import List ZArith QArith String.
From Verif Require Import Model_BOPOpts.
Import ListNotations.
Open Scope string_scope.

(** The nine options of the documentation. *)
Definition documented : list string :=
  ["init_lambda"; "maxlam"; "lamup"; "use_levmarq"; "maxiter"; "tol"; "eps_stall"; "use_fulljac"; "verbose"].
(** Their documented defaults. *)
Definition default (k : string) : value :=
  if String.eqb k "init_lambda" then VFloat (Fin 1) else if String.eqb k "maxlam" then VInt 52
  else if String.eqb k "lamup" then VFloat (Fin 2) else if String.eqb k "maxiter" then VInt 30
  else if String.eqb k "tol" then VFloat (Fin (1 # 1000000))
  else if String.eqb k "eps_stall" then VFloat (Fin (1 # 1000000000000))
  else if String.eqb k "verbose" then VBool false else VBool true.
(** An int, a float or a bool. *)
Definition number (v : value) : Prop := match v with VOther _ => False | _ => True end.
(** The value of an option in a call: the one in the dictionary, else the default. *)
Inductive given (d : dict) (k : string) : value -> Prop :=
| Given v : In (k, v) d -> given d k v
| Defaulted : (forall v, ~ In (k, v) d) -> given d k (default k).
(** Below and above a rational number; nan is neither. *)
Definition below (v : value) (q : Q) : Prop :=
  match v with
  | VInt z => (inject_Z z < q)%Q
  | VFloat (Fin x) => (x < q)%Q
  | VFloat NInf => True
  | VBool b => ((if b then 1 else 0) < q)%Q
  | _ => False
  end.
Definition above (v : value) (q : Q) : Prop :=
  match v with
  | VInt z => (q < inject_Z z)%Q
  | VFloat (Fin x) => (q < x)%Q
  | VFloat PInf => True
  | VBool b => (q < (if b then 1 else 0))%Q
  | _ => False
  end.
(** The lower ends and the upper ends of the recommended ranges; the three flags have none. *)
Definition lower (k : string) : option Q :=
  if String.eqb k "lamup" then Some 1%Q
  else if existsb (String.eqb k) ["init_lambda"; "maxlam"; "maxiter"; "tol"] then Some 0%Q else None.
Definition upper (k : string) : option Q :=
  if existsb (String.eqb k) ["init_lambda"; "lamup"; "tol"] then Some (10000000000000000 # 1)
  else if String.eqb k "maxlam" then Some (200 # 1) else if String.eqb k "maxiter" then Some (1000000000000 # 1)
  else if String.eqb k "eps_stall" then Some (1 # 1) else None.
(** A warning for an option is due: the value is outside the recommended range. *)
Definition due (k : string) (v : value) (w : warning) : Prop :=
  (exists q, lower k = Some q /\ below v q /\ w = LessThan k v (Fin q)) \/
  (exists q, upper k = Some q /\ above v q /\ w = GreaterThan k v (Fin q)).
