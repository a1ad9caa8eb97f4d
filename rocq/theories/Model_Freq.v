(** frequency and growth_rate. Models pydmd/dmdbase.py:371-390, inherited by every model but VarProDMD, and
    pydmd/varprodmd.py:814-834. Numbers are real, a complex number is a pair; np.log is a function [lg] with its contract in
    Spec_Freq.v. *)
From Coq Require Import List Reals.
From Verif Require Import Py.
Import ListNotations.
Set Implicit Arguments.
Local Open Scope R_scope.

(** a complex number by its parts (dmdbase.py:380, 390) *)
Definition cx := (R * R)%type.
(** np.log(a).imag of one entry: np.linalg.eig returns a real array if the matrix is real and so are all its eigenvalues
    (dmdoperator.py:213). Then the logarithm is real too, NaN if the entry is negative, and [imag] of a real array is 0
    (dmdbase.py:380) *)
Definition log_imag (lg : cx -> cx) (cplx : bool) (z : cx) : R := if cplx then snd (lg z) else 0.
(** DMDBase.frequency: [cplx] tells if the array of eigenvalues is complex; [eigs] is None before fit; [dt] is None if fit stored no time dictionary (dmdbase.py:371-380, 561-566) *)
Definition frequency (lg : cx -> cx) (cplx : bool) (eigs : option (list cx)) (dt : option R) : result (list R) :=
  match eigs, dt with
  | None, _ => Err TypeError
  | Some _, None => Err RuntimeError
  | Some e, Some h => Ok (map (fun z => log_imag lg cplx z / (2 * PI * h)) e)
  end.
(** DMDBase.growth_rate (dmdbase.py:382-390) *)
Definition growth_rate (eigs : option (list cx)) (dt : option R) : result (list R) :=
  match eigs, dt with
  | None, _ => Err AttributeError
  | Some _, None => Err RuntimeError
  | Some e, Some h => Ok (map (fun z => fst z / h) e)
  end.
(** VarProDMD.frequency (varprodmd.py:814-823) *)
Definition varpro_frequency (eigs : option (list cx)) : result (list R) :=
  match eigs with None => Err AttributeError | Some e => Ok (map (fun z => snd z / (2 * PI)) e) end.
(** VarProDMD.growth_rate (varprodmd.py:825-834) *)
Definition varpro_growth_rate (eigs : option (list cx)) : result (list R) :=
  match eigs with None => Err AttributeError | Some e => Ok (map fst e) end.

(** the models with the attributes of DMDBase; HODMD, RDMD, FbDMD, EDMD, SpDMD, PiDMD fit as their parents do (hodmd.py:97-106,
    rdmd.py:14, fbdmd.py:6, edmd.py:181, spdmd.py:126-132, pidmd.py:235) *)
Inductive estimator := DMD | FbDMD | EDMD | SpDMD | PiDMD | CDMD | RDMD | DMDc | HankelDMD | HODMD | LANDO | MrDMD | SubspaceDMD
  | BOPDMD | OptDMD.
(** [dt] of the time dictionary stored by fit (dmd.py:76-78, cdmd.py:239-241, dmdc.py:319-321, hankeldmd.py:228-230, lando.py:787-789,
    mrdmd.py:518-520, subspacedmd.py:195-197); bopdmd.py:1395-1476 and optdmd.py:195-234 store none *)
Definition fitted_dt (m : estimator) : option R :=
  match m with BOPDMD | OptDMD => None | _ => Some 1 end.
