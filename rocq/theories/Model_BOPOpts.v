(** The options of the variable projection in BOPDMD: how [varpro_opts_dict] becomes the nine options of the operator, which
    values are refused, which give a warning, what the bagging loop does to the flag [verbose], and what [print_varpro_opts]
    prints. Models pydmd/bopdmd.py:136-184, 249-284, 815-860 (the flag only), 1065-1071, 1275-1303, 1451-1465.
    Simplifications: decimal constants are the exact rationals rather than the nearest doubles; the keys of the dictionary are
    strings (any other key is refused by Python itself, with the same TypeError); everything that is not an int, a float or
    a bool is [VOther]. *)
From Coq Require Import List ZArith QArith String Bool Arith.
From Verif Require Import Py.
Import ListNotations.
Set Implicit Arguments.
Open Scope string_scope.

(** The floats, with the infinities and nan (bopdmd.py:257-265 compares options with [-np.inf] and [np.inf]). *)
Inductive num := Fin (q : Q) | PInf | NInf | NaN.
(** [a < b] of Python (bopdmd.py:273,279): false as soon as one of the two is nan. *)
Definition num_lt (a b : num) : bool :=
  match a, b with
  | Fin x, Fin y => negb (Qle_bool y x)
  | Fin _, PInf | NInf, Fin _ | NInf, PInf => true
  | _, _ => false
  end.
(** A value given for an option. A numpy float64 is a float of Python; a numpy integer or boolean is not an int (bopdmd.py:270). *)
Inductive value := VInt (z : Z) | VFloat (x : num) | VBool (b : bool) | VOther (tag : nat).
(** isinstance(opt_value, (int, float, bool)) (bopdmd.py:270); a bool is compared as 0 or 1 (273-284). *)
Definition as_num (v : value) : option num :=
  match v with
  | VInt z => Some (Fin (inject_Z z))
  | VFloat x => Some x
  | VBool b => Some (Fin (if b then 1 else 0))
  | VOther _ => None
  end.
(** [if verbose:] (bopdmd.py:824,856) *)
Definition truthy (v : value) : bool :=
  match v with
  | VInt z => negb (Z.eqb z 0)
  | VFloat (Fin q) => negb (Qeq_bool q 0)
  | VFloat _ => true
  | VBool b => b
  | VOther _ => true
  end.

(** The keyword parameters of BOPDMDOperator.__init__ with their defaults, in order (bopdmd.py:150-158). *)
Definition parameters : list (string * value) :=
  [("init_lambda", VFloat (Fin 1)); ("maxlam", VInt 52); ("lamup", VFloat (Fin 2)); ("use_levmarq", VBool true);
   ("maxiter", VInt 30); ("tol", VFloat (Fin (1 # 1000000))); ("eps_stall", VFloat (Fin (1 # 1000000000000)));
   ("use_fulljac", VBool true); ("verbose", VBool false)].
(** rec_ranges, in order (bopdmd.py:256-265). *)
Definition ranges : list (string * (num * num)) :=
  [("init_lambda", (Fin 0, Fin (10000000000000000 # 1))); ("maxlam", (Fin 0, Fin 200));
   ("lamup", (Fin 1, Fin (10000000000000000 # 1))); ("use_levmarq", (NInf, PInf));
   ("maxiter", (Fin 0, Fin (1000000000000 # 1))); ("tol", (Fin 0, Fin (10000000000000000 # 1)));
   ("eps_stall", (NInf, Fin 1)); ("use_fulljac", (NInf, PInf)); ("verbose", (NInf, PInf))].

(** A dictionary of Python: keys in order of insertion (bopdmd.py:1066-1071). *)
Definition dict := list (string * value).
(** Lookup of a keyword argument when the call [BOPDMDOperator(..., **d)] is bound (bopdmd.py:1451-1465). *)
Fixpoint lookup (k : string) (d : dict) : option value :=
  match d with [] => None | (k', v) :: r => if String.eqb k k' then Some v else lookup k r end.
(** The call with the keyword arguments of the dictionary: an unknown keyword, or one of the twelve that are already given by
    position, is a TypeError; the rest of the parameters take their defaults (bopdmd.py:1451-1465 on 136-159, 172-182). *)
Definition bind_call (d : dict) : result (list value) :=
  if forallb (fun kv => existsb (String.eqb (fst kv)) (map fst parameters)) d
  then Ok (map (fun p => match lookup (fst p) d with Some v => v | None => snd p end) parameters)
  else Err TypeError.

(** A warning names the option, its value and the bound it violates (bopdmd.py:273-284). *)
Inductive warning := LessThan (name : string) (v : value) (bound : num) | GreaterThan (name : string) (v : value) (bound : num).
(** _varpro_opts_warn (bopdmd.py:249-284). The warnings given before an error are not part of the result. *)
Fixpoint opts_warn (opts : list value) (rs : list (string * (num * num))) : result (list warning) :=
  match opts, rs with
  | v :: opts', (name, (lo, hi)) :: rs' =>
      match as_num v with
      | None => Err TypeError
      | Some x =>
          let w := if num_lt x lo then [LessThan name v lo] else if num_lt hi x then [GreaterThan name v hi] else [] in
          let! r := opts_warn opts' rs' in Ok (w ++ r)%list
      end
  | _, _ => Ok []
  end.
(** The part of BOPDMDOperator.__init__ that concerns the options: the stored list and the warnings (bopdmd.py:136-184). *)
Definition build (d : dict) : result (list value * list warning) :=
  let! opts := bind_call d in
  let! ws := opts_warn opts ranges in
  Ok (opts, ws).
(** The argument of the constructor of BOPDMD: None means an empty dictionary (bopdmd.py:1066-1071). *)
Inductive dict_arg := DNone | DDict (d : dict) | DElse.
Definition init_opts (a : dict_arg) : result dict :=
  match a with DNone => Ok [] | DDict d => Ok d | DElse => Err TypeError end.

(** The flag during the bagging trials: [left] trials are still displayed, [last] is the last stored option; each trial reads
    the stored option when it runs (bopdmd.py:823-826, 850-860, 544-554). Returns the stored option afterwards and, for each
    of the [n] trials, whether it displayed its progress. *)
Fixpoint bag_loop (n : nat) (last : value) (verbose : bool) (left : nat) : value * list bool :=
  match n with
  | O => (last, [])
  | S n' =>
      let s := truthy last in
      let '(last', verbose', left') :=
        if verbose then let v := Nat.ltb 0 (left - 1) in (VBool v, v, (left - 1)%nat) else (last, verbose, left) in
      let (r, l) := bag_loop n' last' verbose' left' in (r, s :: l)
  end.
(** The replacement of the last entry of a list, [self._varpro_opts[-1] = verbose] (bopdmd.py:860). *)
Definition set_last (opts : list value) (v : value) : list value := (removelast opts ++ [v])%list.
(** compute_operator as far as the options go, for [n] trials in all, failed ones included; n = 0 is the case without bagging
    (bopdmd.py:815-860). *)
Definition after_fit (opts : list value) (n : nat) : list value * list bool :=
  let v := List.last opts (VBool false) in
  let (v', l) := bag_loop n v (truthy v) 5 in (set_last opts v', l).

(** print_varpro_opts: one line per option (bopdmd.py:1284-1303); [show] is str. Before the fit it raises (1280-1281). *)
Definition tab : string := String (Ascii.ascii_of_nat 9) "".
Definition print_opts (show : value -> string) (opts : option (list value)) : result (list string) :=
  match opts with
  | None => Err ValueError
  | Some l => Ok (map (fun p : string * value =>
                         if Nat.ltb (String.length (fst p)) 7 then fst p ++ ":" ++ tab ++ tab ++ show (snd p)
                         else fst p ++ ":" ++ tab ++ show (snd p)) (combine (map fst parameters) l))
  end.
