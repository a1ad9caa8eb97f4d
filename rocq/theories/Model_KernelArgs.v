(** The kernel arguments of LANDO and EDMD: which metrics, parameters and custom functions the constructors accept, when they
    warn, and the constants of the built-in kernels and of their gradients. Models pydmd/lando.py:476-479, 561-588, 986-1080 and
    pydmd/edmd.py:224-233, 279-298.
    Simplifications: keys of kernel_params are strings, values are numbers, None or something else; a custom function decides
    from the shapes of its arguments whether it raises and what shape it returns; the text of the messages is left out. *)
From Coq Require Import List QArith String Bool Arith.
From Verif Require Import Py.
Import ListNotations.
Set Implicit Arguments.
Open Scope nat_scope.
Open Scope string_scope.

(** A value in kernel_params (lando.py:561-577). *)
Inductive pval := PNum (q : Q) | PNone | PElse.
(** The argument kernel_params (lando.py:463, 476-477, 999; edmd.py:222, 227-230). *)
Inductive params_arg := KNone | KDict (d : list (string * pval)) | KElse.
(** What a call of a function does: raises an Exception, returns an array of some shape, or something else (lando.py:1060-1080). *)
Inductive ret := RRaise | RArray (s : list nat) | RElse.
(** The arguments kernel_function and kernel_gradient; [FNotFun] is any object that inspect.isfunction does not accept, among
    them bound methods, builtins and partial objects (lando.py:1031, 1041, 1051). *)
Inductive fobj := FNone | FFun (call : list nat -> list nat -> ret) | FNotFun.

Section Args.
(** sklearn.metrics.pairwise_kernels on the dummy data: does it return? (lando.py:1003-1008, edmd.py:286-290) *)
Variable sk : string -> list (string * pval) -> bool.

(** self._supported_kernels (lando.py:473) *)
Definition supported : list string := ["linear"; "poly"; "rbf"].
(** _test_kernel_inputs of LANDO, with the replacement of None before it (lando.py:476-478, 986-1015) *)
Definition lando_inputs (metric : string) (p : params_arg) : result (list (string * pval)) :=
  if existsb (String.eqb metric) supported then
    match p with
    | KElse => Err TypeError
    | KNone => if sk metric [] then Ok [] else Err ValueError
    | KDict d => if sk metric d then Ok d else Err ValueError
    end
  else Err ValueError.

(** isinstance(K, np.ndarray) and K.shape == s (lando.py:1065, 1076) *)
Definition is_array (s : list nat) (r : ret) : bool :=
  match r with RArray s' => if list_eq_dec Nat.eq_dec s s' then true else false | _ => false end.
(** _test_kernel_functions: whether it warns (lando.py:1017-1080) *)
Definition lando_functions (f g : fobj) : result bool :=
  match f, g with
  | FNone, FNone => Ok false
  | FNone, _ => Err ValueError
  | FNotFun, _ => Err TypeError
  | FFun _, FNotFun => Err TypeError
  | FFun k, FNone => if is_array [10; 20] (k [5; 10] [5; 20]) then Ok true else Err ValueError
  | FFun k, FFun k' =>
      if is_array [10; 20] (k [5; 10] [5; 20]) then
        if is_array [10; 5] (k' [5; 10] [5]) then Ok false else Err ValueError
      else Err ValueError
  end.
(** The checks of LANDO.__init__: the parameters stored and whether there is a warning (lando.py:473-479) *)
Definition lando_init (metric : string) (p : params_arg) (f g : fobj) : result (list (string * pval) * bool) :=
  let! d := lando_inputs metric p in
  let! w := lando_functions f g in
  Ok (d, w).

(** The checks of EDMD.__init__ (edmd.py:224-233, 279-298); [zero] is svd_rank == 0 *)
Definition edmd_init (zero : bool) (metric : string) (p : params_arg) : result (list (string * pval)) :=
  if zero then Err ValueError
  else match p with
  | KElse => Err TypeError
  | KNone => if sk metric [] then Ok [] else Err ValueError
  | KDict d => if sk metric d then Ok d else Err ValueError
  end.
End Args.

(** A parameter of the dictionary (lando.py:564-577) *)
Fixpoint param (k : string) (d : list (string * pval)) : option pval :=
  match d with [] => None | (k', v) :: r => if String.eqb k k' then Some v else param k r end.
(** gamma, coef0 and degree in kernel_gradient: the default if the key is missing, else the value, which is then multiplied or
    added (lando.py:564-588) *)
Definition grad_const (k : string) (dflt : Q) (d : list (string * pval)) : result Q :=
  match param k d with None => Ok dflt | Some (PNum q) => Ok q | Some _ => Err TypeError end.
(** the constants of the poly and rbf gradients for [n] features: poly needs three, rbf one (lando.py:564-588) *)
Definition grad_consts (metric : string) (n : nat) (d : list (string * pval)) : result (list Q) :=
  let g := (1 / inject_Z (Z.of_nat n))%Q in
  if String.eqb metric "linear" then Ok []
  else let! a := grad_const "gamma" g d in
       if String.eqb metric "poly" then
         let! c := grad_const "coef0" 1%Q d in let! e := grad_const "degree" 3%Q d in Ok [a; c; e]
       else Ok [a].
(** the same constants in the kernels of scikit-learn, called at lando.py:530-532: a gamma of None also means one over the number of
    features *)
Definition sk_const (k : string) (dflt : Q) (d : list (string * pval)) : result Q :=
  match param k d with
  | None => Ok dflt
  | Some (PNum q) => Ok q
  | Some PNone => if String.eqb k "gamma" then Ok dflt else Err TypeError
  | Some PElse => Err TypeError
  end.
(** lando.py:530-532 *)
Definition sk_consts (metric : string) (n : nat) (d : list (string * pval)) : result (list Q) :=
  let g := (1 / inject_Z (Z.of_nat n))%Q in
  if String.eqb metric "linear" then Ok []
  else let! a := sk_const "gamma" g d in
       if String.eqb metric "poly" then
         let! c := sk_const "coef0" 1%Q d in let! e := sk_const "degree" 3%Q d in Ok [a; c; e]
       else Ok [a].
