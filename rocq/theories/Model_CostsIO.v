(** * COSTS and mrCOSTS (costs.py, mrcosts.py): saving and restoring

    Strings are Coq strings; attribute values are the Python values below.  Simplification: a dataset in memory and the
    same dataset read back from a file are the same (what the netCDF library does to single values is left out). *)
From Coq Require Import QArith String Ascii.
From mathcomp Require Import all_ssreflect all_fingroup all_algebra.
From Verif Require Import Py LinAlg Model_Operator Model_BOP Model_CostsWin Model_Costs Model_MrCosts.
From Verif Require Model_Utils.
Set Implicit Arguments. Unset Strict Implicit. Unset Printing Implicit Defensive.

(** ** Python values *)
(** [VSet l]: the set of the values listed in [l]; [VFun n]: a callable with that __name__, or without one;
    [VArr]: a numpy array, of which only a number identifying it is kept. costs.py:1487-1504 (what attributes hold) *)
Inductive pyval :=
  VNone | VBool (b : bool) | VNum (q : Q) | VStr (s : string) | VArr (a : nat)
| VSet (l : seq pyval) | VList (l : seq pyval) | VTuple (l : seq pyval) | VFun (name : option string).

(** what a set may contain. costs.py:1542 *)
Fixpoint hashable (v : pyval) : bool :=
  match v with
  | VSet _ | VList _ | VArr _ => false
  | VTuple l => all hashable l
  | _ => true
  end.
(** costs.py:1542 *)
Fixpoint chars (s : string) : seq pyval :=
  match s with EmptyString => [::] | String a s' => VStr (String a EmptyString) :: chars s' end.
(** set(v); an array (of rows, as a basis is) raises TypeError. costs.py:1542-1544 *)
Definition to_set (v : pyval) : result pyval :=
  match v with
  | VStr s => Ok (VSet (chars s))
  | VSet l => Ok (VSet l)
  | VList l | VTuple l => if all hashable l then Ok (VSet l) else Err TypeError
  | _ => Err TypeError
  end.

(** _xarray_sanitize (costs.py:1550-1567) *)
Definition sanitize (v : pyval) : result pyval :=
  match v with
  | VNone => Ok (VStr "None")
  | VSet l => Ok (VList l)
  | VFun (Some s) => Ok (VStr ("Custom function " ++ s)%string)
  | VFun None => Err AttributeError
  | _ => Ok v
  end.
(** _xarray_unsanitize (costs.py:1569-1591) *)
Definition unsanitize (v : pyval) : pyval :=
  match v with VStr s => if String.eqb s "None" then VNone else v | _ => v end.

(** ** Strings *)
(** [pat in s]. costs.py:1536, 1545 *)
Fixpoint contains (pat s : string) : bool :=
  String.prefix pat s || match s with EmptyString => false | String _ s' => contains pat s' end.
(** [s.replace(pat, "")] for a pattern that is not empty; [skip] characters are still to be left out. costs.py:1537 *)
Fixpoint remove (pat : string) (skip : nat) (s : string) : string :=
  match s with
  | EmptyString => EmptyString
  | String a s' =>
      match skip with
      | S k => remove pat k s'
      | O => if String.prefix pat s then remove pat (String.length pat).-1 s' else String a (remove pat 0 s')
      end
  end.

Import GRing.Theory Num.Theory.
Local Open Scope ring_scope.

Section IO.
Variable C : numClosedFieldType.
Variable y : cext C.

(** ** The object and the dataset *)
(** a COSTS object with the attributes the other files leave out: _svd_rank_pre_allocate, _transform_method (costs.py:115,
    118) and _pydmd_kwargs as the dictionary that was given *)
Record obj n := Obj { ob_c : costs C n; ob_pre : option nat; ob_trans : pyval; ob_kw : seq (string * pyval) }.
(** the dictionary pydmd_kwargs of a new object (costs.py:121-136): three entries are always there *)
Definition default_kw (kw : option (seq (string * pyval))) : seq (string * pyval) :=
  let l := odflt [::] kw in
  let has k := List.existsb (fun p => String.eqb p.1 k) l in
  l ++ (if has "eig_sort"%string then [::] else [:: ("eig_sort"%string, VStr "imag")])
    ++ (if has "proj_basis"%string then [::] else [:: ("proj_basis"%string, VNone)])
    ++ (if has "use_proj"%string then [::] else [:: ("use_proj"%string, VBool false)]).
(** COSTS() (costs.py:75-136) *)
Definition blank n : obj n :=
  Obj (Costs (CCfg None true false false None false true None) no_wins None None) None VNone (default_kw None).

(** the dataset: the arrays (with their two sizes), the frequency bands, the attributes. costs.py:1451-1501 *)
Record dataset n := Dataset {
  ds_fit : fitted C n; ds_bands : bands C; ds_svd_rank : option Model_Utils.rank_arg; ds_wins : wins; ds_global : bool;
  ds_attrs : seq (string * pyval) }.

(** len(np.arange(svd_rank)). costs.py:1478 *)
Definition arange_size (rk : Model_Utils.rank_arg) : nat := BinInt.Z.to_nat (Qround.Qceiling (Model_Utils.rank_val rk)).
(** the sizes of the coordinates are those of the arrays (costs.py:1475-1486) *)
Definition shapes n (f : fitted C n) (b : bands C) (rk : Model_Utils.rank_arg) (s : wins) : bool :=
  let eqs (o : option BinNums.Z) (k : nat) := if o is Some z then BinInt.Z.eqb z (BinInt.Z.of_nat k) else false in
  [&& arange_size rk == f_pre f, eqs (w_slides s) (size (f_res f)), eqs (w_length s) (f_w f), eqs (w_vars s) n
    & size (ba_cent b) == ba_n b].

(** the attributes pydmd_kwargs__... (costs.py:1503-1504) *)
Fixpoint store (kw : seq (string * pyval)) : result (seq (string * pyval)) :=
  match kw with
  | [::] => Ok [::]
  | (k, v) :: kw' =>
      let! u := sanitize v in
      let! rest := store kw' in
      Ok (("pydmd_kwargs__" ++ k, u)%string :: rest)
  end.
(** to_xarray (costs.py:1434-1506).  Before a fit np.mean of None raises AxisError, which is a ValueError; before a
    clustering np.arange(None) raises TypeError (simplification: no n_components given to the constructor). *)
Definition to_xarray n (o : obj n) : result (dataset n) :=
  match c_fit (ob_c o), c_bands (ob_c o) with
  | None, _ => Err ValueError
  | Some _, None => Err TypeError
  | Some f, Some b =>
      match cc_rank (c_cfg (ob_c o)) with
      | None => Err TypeError
      | Some rk =>
          let! t := sanitize (ob_trans o) in
          if shapes f b rk (c_win (ob_c o)) then
            let! l := store (ob_kw o) in
            Ok (Dataset f b (Some rk) (c_win (ob_c o)) (cc_global (c_cfg (ob_c o))) (("omega_transformation"%string, t) :: l))
          else Err ValueError
      end
  end.

(** dict[k] = v: the place of an existing key is kept. costs.py:1504, 1538 *)
Fixpoint put (k : string) (v : pyval) (d : seq (string * pyval)) : seq (string * pyval) :=
  match d with
  | [::] => [:: (k, v)]
  | (k', v') :: d' => if String.eqb k' k then (k', v) :: d' else (k', v') :: put k v d'
  end.
(** the loop over the attributes (costs.py:1534-1546); the other attributes do not match either test *)
Fixpoint load (attrs : seq (string * pyval)) (kw : seq (string * pyval)) (tr : pyval) : result (seq (string * pyval) * pyval) :=
  match attrs with
  | [::] => Ok (kw, tr)
  | (a, v) :: attrs' =>
      if contains "pydmd_kwargs" a then
        let k := remove "pydmd_kwargs__" 0 a in
        let u := unsanitize v in
        let! u' := (if String.eqb k "eig_constraints" then to_set u else Ok u) in
        load attrs' (put k u' kw) tr
      else if contains "omega_transformation" a then load attrs' kw (unsanitize v)
      else load attrs' kw tr
  end.
(** from_xarray (costs.py:1508-1548) on the object [o]; _svd_rank_pre_allocate and the constructor arguments other than
    svd_rank and global_svd keep the values of [o] *)
Definition from_xarray n m (o : obj m) (d : dataset n) : result (obj n) :=
  let g := c_cfg (ob_c o) in
  let! (kw, tr) := load (ds_attrs d) [::] (ob_trans o) in
  Ok (Obj (Costs (CCfg (ds_svd_rank d) (ds_global d) (cc_art g) (cc_last g) (cc_alpha g) (cc_reset g) (cc_even g) (cc_max g))
                 (ds_wins d) (Some (ds_fit d)) (Some (ds_bands d)))
          (ob_pre o) tr kw).

(** cluster_omega (costs.py:632-739): the eigenvalues are first reshaped to n_slides * _svd_rank_pre_allocate *)
Definition recluster n (o : obj n) (k : nat) (tr : option trans) : result (costs C n) :=
  match c_fit (ob_c o), ob_pre o with
  | None, _ => Err AttributeError
  | Some _, None => Err TypeError
  | Some f, Some p => if p == f_pre f then cluster_omega y (ob_c o) true k tr else Err ValueError
  end.

(** ** mrCOSTS *)
(** a directory: the files written under one common name, by window length (mrcosts.py:578-584) *)
Definition files n : Type := seq (BinNums.Z * dataset n).
(** mrcosts.py:586-590 *)
Fixpoint write n (fs : files n) (w : BinNums.Z) (d : dataset n) : files n :=
  match fs with
  | [::] => [:: (w, d)]
  | (w', d') :: fs' => if BinInt.Z.eqb w' w then (w, d) :: fs' else (w', d') :: write fs' w d
  end.
(** to_netcdf (mrcosts.py:563-590): an existing file is replaced *)
Fixpoint to_netcdf n (fs : files n) (lev : seq (obj n)) : result (files n) :=
  match lev with
  | [::] => Ok fs
  | o :: lev' =>
      let! d := to_xarray o in
      to_netcdf (write fs (odflt BinNums.Z0 (w_length (c_win (ob_c o)))) d) lev'
  end.
(** mrcosts.py:523-526 *)
Definition find_file n (fs : files n) (w : BinNums.Z) : option (dataset n) :=
  if List.find (fun p => BinInt.Z.eqb p.1 w) fs is Some p then Some p.2 else None.
(** mrcosts.py:521-526 *)
Fixpoint load_files n (fs : files n) (l : seq BinNums.Z) : result (seq (dataset n)) :=
  match l with
  | [::] => Ok [::]
  | w :: l' => if find_file fs w is Some d then let! rest := load_files fs l' in Ok (d :: rest) else Err ValueError
  end.
(** sorted by window length; sorted is stable. mrcosts.py:528 *)
Definition ds_length n (d : dataset n) : BinNums.Z := odflt BinNums.Z0 (w_length (ds_wins d)).
(** mrcosts.py:528 *)
Definition by_length n (a b : dataset n) : bool := BinInt.Z.leb (ds_length a) (ds_length b).

(** what from_netcdf leaves (mrcosts.py:514-561): arguments, levels, sizes; transform_method is None and
    costs_recon_kwargs is empty again, there are no global bands *)
Record restored n := Restored {
  re_windows : seq BinNums.Z; re_steps : seq BinNums.Z; re_ranks : seq Model_Utils.rank_arg; re_global : seq bool;
  re_ncomp : seq (option nat); re_kw : seq (string * pyval); re_levels : seq (obj n); re_times : option BinNums.Z }.
(** mrcosts.py:535 *)
Fixpoint load_levels n (l : seq (dataset n)) : result (seq (obj n)) :=
  match l with
  | [::] => Ok [::]
  | d :: l' => let! o := from_xarray (blank 0) d in let! rest := load_levels l' in Ok (o :: rest)
  end.
(** mrcosts.py:514-561 *)
Definition from_netcdf n (fs : files n) (names : seq BinNums.Z) : result (restored n) :=
  let! l := load_files fs names in
  let l' := sort (@by_length n) l in
  if l' is d0 :: _ then
    let! lev := load_levels l' in
    Ok (Restored [seq odflt BinNums.Z0 (w_length (c_win (ob_c o))) | o <- lev] [seq odflt BinNums.Z0 (w_step (c_win (ob_c o))) | o <- lev]
          [seq odflt (Model_Utils.RInt BinNums.Z0) (cc_rank (c_cfg (ob_c o))) | o <- lev] [seq cc_global (c_cfg (ob_c o)) | o <- lev]
          [seq omap (@ba_n C) (c_bands (ob_c o)) | o <- lev] (if lev is o :: _ then ob_kw o else [::]) lev (w_times (ds_wins d0)))
  else Err IndexError.
(** the restored object in the terms of Model_MrCosts.v; [kw]: its options, which only a new fit uses.
    mrcosts.py:547-561 *)
Definition as_mr n (kw : kwargs C n) (r : restored n) : mrcosts C n :=
  MrCosts (re_windows r) (re_steps r) (re_ranks r) (Some (re_global r)) (Some (re_ncomp r)) false None true kw
    (Some (size (re_levels r))) (if re_times r is Some z then BinInt.Z.to_nat z else 0) (Some [seq ob_c o | o <- re_levels r])
    None None None.
End IO.
