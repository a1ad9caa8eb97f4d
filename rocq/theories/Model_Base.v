(** * Model of [DMDBase]: lifecycle, activation bitmask, indexing, time window

    Source: /repo/pydmd/dmdbase.py (classes ActivationBitmaskProxy, DMDBase,
    DMDTimeDict) and the control flow of /repo/pydmd/dmd.py:49-82 (DMD.fit).

    Python objects live in an explicit [world]: NumPy arrays are cells of a
    heap, operators, proxies and dictionaries have identities, instances hold
    references.  Two instances that share a reference see each other's in-place
    writes, exactly as in Python.

    Simplifications (all in this file):
    - an array entry is an abstract value [V]; the matrix of modes is the list
      of its columns, a column being one [V];
    - the numerical results of a fit are arguments of the [Fit] operation, so
      a theorem about all operations is a theorem about all numerical results;
    - the snapshots are represented by their number only;
    - a time dictionary maps string keys to rationals. *)

From Coq Require Import List ZArith Lia Bool String QArith.
From Verif Require Import Py.
Import ListNotations.

Section Base.
Context {V : Type}.

(** an array object: identity of a NumPy array held by attributes of dmdbase.py:39-46, 178-197 *)
Definition loc := nat.

(** dmdoperator.py:96-97,213,280: the attributes set by compute_operator
    ([None]: attribute missing, the accessors of lines 120-142 raise). *)
Record oper := mkOper { o_modes : option loc; o_eigs : option loc }.

(** dmdbase.py:39-70: the attributes of an ActivationBitmaskProxy. *)
Record proxy := mkProxy {
  px_om : loc; px_oe : loc; px_oa : loc;       (* _original_* *)
  px_mask : list bool;                         (* old_bitmask *)
  px_m : loc; px_e : loc; px_a : loc }.        (* _modes, _eigs, _amplitudes *)

(** dmdbase.py:759-774: a dictionary; [d_checked] tells a DMDTimeDict from a
    plain dict. *)
Record tdict := mkDict { d_checked : bool; d_items : list (string * Q) }.

(** dmdbase.py:178-197: the attributes of a DMDBase instance. *)
Record inst := mkInst {
  in_op : nat;               (* _Atilde: reference to the operator *)
  in_b : option loc;         (* _b *)
  in_px : option nat;        (* _modes_activation_bitmask_proxy *)
  in_ot : option nat;        (* _original_time *)
  in_dt : option nat;        (* _dmd_time *)
  in_snap : option nat }.    (* _snapshots_holder, by number of snapshots *)

(** all the Python objects alive at a time: arrays, and the objects of dmdbase.py:14-104 and 106-197 *)
Record world := mkWorld {
  heap : list (list V);
  opers : list oper;
  proxies : list proxy;
  dicts : list tdict;
  insts : list inst;
  handles : list loc }.      (* arrays the user got from a property *)

(** ** Heap primitives. reading an array, as in dmdbase.py:66-68 *)
Definition hget (w : world) (l : loc) : list V := nth l (heap w) [].
(** writing into an array in place, as in dmdbase.py:62-64 *)
Definition hset (w : world) (l : loc) (a : list V) : world :=
  mkWorld (upd (heap w) l a) (opers w) (proxies w) (dicts w) (insts w) (handles w).
(** creating an array, as in dmdbase.py:66-68 *)
Definition halloc (w : world) (a : list V) : world :=
  mkWorld (heap w ++ [a]) (opers w) (proxies w) (dicts w) (insts w) (handles w).
(** the identity of the next array created (dmdbase.py:66-68) *)
Definition next (w : world) : loc := List.length (heap w).
(** assigning attributes of an instance (dmdbase.py:178-197) *)
Definition set_inst (w : world) (i : nat) (s : inst) : world :=
  mkWorld (heap w) (opers w) (proxies w) (dicts w) (upd (insts w) i s) (handles w).
(** assigning attributes of an operator (dmdoperator.py:96-97) *)
Definition set_oper (w : world) (o : nat) (x : oper) : world :=
  mkWorld (heap w) (upd (opers w) o x) (proxies w) (dicts w) (insts w) (handles w).
(** assigning attributes of a proxy (dmdbase.py:39-70) *)
Definition set_proxy (w : world) (p : nat) (x : proxy) : world :=
  mkWorld (heap w) (opers w) (upd (proxies w) p x) (dicts w) (insts w) (handles w).
(** creating a proxy (dmdbase.py:482-491) *)
Definition add_proxy (w : world) (x : proxy) : world :=
  mkWorld (heap w) (opers w) (proxies w ++ [x]) (dicts w) (insts w) (handles w).
(** changing a dictionary (dmdbase.py:759-769) *)
Definition set_dict (w : world) (d : nat) (x : tdict) : world :=
  mkWorld (heap w) (opers w) (proxies w) (upd (dicts w) d x) (insts w) (handles w).
(** creating a dictionary (dmdbase.py:598-618) *)
Definition add_dict (w : world) (x : tdict) : world :=
  mkWorld (heap w) (opers w) (proxies w) (dicts w ++ [x]) (insts w) (handles w).
(** creating an instance (dmdbase.py:167-197) *)
Definition add_inst (w : world) (s : inst) : world :=
  mkWorld (heap w) (opers w) (proxies w) (dicts w) (insts w ++ [s]) (handles w).
(** the user keeps an array returned by a property (dmdbase.py:227-264) *)
Definition add_handle (w : world) (l : loc) : world :=
  mkWorld (heap w) (opers w) (proxies w) (dicts w) (insts w) (handles w ++ [l]).

(** [self.operator], dmdbase.py:244-252 *)
Definition oper_of (w : world) (s : inst) : oper :=
  nth (in_op s) (opers w) (mkOper None None).
(** [self._modes_activation_bitmask_proxy], dmdbase.py:236-242 *)
Definition proxy_at (w : world) (p : nat) : option proxy := nth_error (proxies w) p.
(** assigning _modes_activation_bitmask_proxy, dmdbase.py:482-491, 634 *)
Definition with_px (s : inst) (p : option nat) : inst :=
  mkInst (in_op s) (in_b s) p (in_ot s) (in_dt s) (in_snap s).

(** dmdbase.py:167-197 (and dmd.py: DMD inherits it): a fresh, unfitted instance *)
Definition new_inst (w : world) : world :=
  add_inst
    (mkWorld (heap w) (opers w ++ [mkOper None None]) (proxies w) (dicts w)
             (insts w) (handles w))
    (mkInst (List.length (opers w)) None None None None None).

(** dmdbase.py:407-417: property [fitted] *)
Definition fitted (w : world) (s : inst) : bool :=
  match o_modes (oper_of w s) with Some _ => true | None => false end.

(** dmdbase.py:39-45 with the first call of change_bitmask (66-70): a proxy on
    the operator's arrays and the amplitudes; nothing is flushed, the mask is
    all True, the proxied arrays are fresh. *)
Definition proxy_init (w : world) (m e b : loc) : world * result proxy :=
  let mask := repeat true (List.length (hget w e)) in
  match (let! pm := np_mask_get mask (hget w m) in
         let! pe := np_mask_get mask (hget w e) in
         let! pa := np_mask_get mask (hget w b) in Ok (pm, pe, pa)) with
  | Err x => (w, Err x)
  | Ok (pm, pe, pa) =>
      let w1 := halloc w pm in
      let w2 := halloc w1 pe in
      let w3 := halloc w2 pa in
      (w3, Ok (mkProxy m e b mask (next w) (next w1) (next w2)))
  end.

(** dmdbase.py:482-491: _allocate_modes_bitmask_proxy; quiet when the
    amplitudes are not set; the operator's accessors raise ValueError when
    their attribute is missing. *)
Definition allocate (w : world) (i : nat) (s : inst) : world * result inst :=
  match in_b s with
  | None => (w, Ok s)
  | Some b =>
      match o_modes (oper_of w s), o_eigs (oper_of w s) with
      | Some m, Some e =>
          let '(w1, r) := proxy_init w m e b in
          match r with
          | Err x => (w1, Err x)
          | Ok px =>
              let s' := with_px s (Some (List.length (proxies w1))) in
              (set_inst (add_proxy w1 px) i s', Ok s')
          end
      | _, _ => (w, Err ValueError)
      end
  end.

(** the idiom of lines 236-237, 263-264, 403-404, 452-453: allocate the proxy
    unless there is one already *)
Definition ensure (w : world) (i : nat) (s : inst) : world * result inst :=
  match in_px s with
  | Some _ => (w, Ok s)
  | None => allocate w i s
  end.

(** the properties of dmdbase.py:228, 255, 393 *)
Inductive kind := KModes | KEigs | KAmps.

(** dmdbase.py:227-242 (modes), 254-269 (eigs), 392-405 (amplitudes).
    [Ok None] is Python's None, returned by an unfitted instance. *)
Definition get_arr (w : world) (i : nat) (s : inst) (k : kind)
  : world * result (option loc) :=
  if fitted w s then
    let '(w1, r) := ensure w i s in
    match r with
    | Err x => (w1, Err x)
    | Ok s1 =>
        match in_px s1 with
        | Some p =>
            match proxy_at w1 p with
            | Some px =>
                (w1, Ok (Some (match k with
                               | KModes => px_m px
                               | KEigs => px_e px
                               | KAmps => px_a px end)))
            | None => (w1, Err AttributeError)
            end
        | None =>
            match k with
            | KModes => match o_modes (oper_of w1 s1) with
                        | Some l => (w1, Ok (Some l)) | None => (w1, Err ValueError) end
            | KEigs => match o_eigs (oper_of w1 s1) with
                       | Some l => (w1, Ok (Some l)) | None => (w1, Err ValueError) end
            | KAmps => (w1, Err AttributeError)   (* None.amplitudes *)
            end
        end
    end
  else (w, Ok None).

(** dmdbase.py:419-458: getter of modes_activation_bitmask *)
Definition get_mask (w : world) (i : nat) (s : inst) : world * result (list bool) :=
  if fitted w s then
    let '(w1, r) := ensure w i s in
    match r with
    | Err x => (w1, Err x)
    | Ok s1 =>
        match in_px s1 with
        | Some p => match proxy_at w1 p with
                    | Some px => (w1, Ok (px_mask px))
                    | None => (w1, Err AttributeError) end
        | None => (w1, Err AttributeError)        (* None.old_bitmask *)
        end
    end
  else (w, Err RuntimeError).

(** dmdbase.py:47-70: change_bitmask on an existing proxy.  The proxied arrays
    are written back under the old mask, then fresh arrays are read under the
    new one.  Simplification: when a size mismatch makes NumPy raise, no
    partial write is represented; [Proofs_Base_Inv.change_mask_ok] shows that no
    mismatch is reachable. *)
Definition change_mask (w : world) (p : nat) (value : list bool) : world * result unit :=
  match proxy_at w p with
  | None => (w, Err AttributeError)
  | Some px =>
      match (let! om := np_mask_set (px_mask px) (hget w (px_om px)) (hget w (px_m px)) in
             let! oe := np_mask_set (px_mask px) (hget w (px_oe px)) (hget w (px_e px)) in
             let! oa := np_mask_set (px_mask px) (hget w (px_oa px)) (hget w (px_a px)) in
             Ok (om, oe, oa)) with
      | Err x => (w, Err x)
      | Ok (om, oe, oa) =>
          let w1 := hset (hset (hset w (px_om px) om) (px_oe px) oe) (px_oa px) oa in
          match (let! m := np_mask_get value (hget w1 (px_om px)) in
                 let! e := np_mask_get value (hget w1 (px_oe px)) in
                 let! a := np_mask_get value (hget w1 (px_oa px)) in
                 Ok (m, e, a)) with
          | Err x => (w1, Err x)
          | Ok (m, e, a) =>
              let w2 := halloc w1 m in
              let w3 := halloc w2 e in
              let w4 := halloc w3 a in
              (set_proxy w4 p
                 (mkProxy (px_om px) (px_oe px) (px_oa px) value
                          (next w1) (next w2) (next w3)), Ok tt)
          end
      end
  end.

(** The value assigned to the mask after [np.array(value)] (line 466): its
    dtype is bool or not, it has a shape and, for a bool array, entries. *)
Record maskval := mkMaskval { mv_bool : bool; mv_shape : list nat; mv_data : list bool }.

(** dmdbase.py:460-480: setter of modes_activation_bitmask *)
Definition set_mask (w : world) (i : nat) (s : inst) (v : maskval)
  : world * result unit :=
  if fitted w s then
    if mv_bool v then
      let '(w1, r) := get_mask w i s in
      match r with
      | Err x => (w1, Err x)
      | Ok m =>
          if list_eq_dec Nat.eq_dec (mv_shape v) [List.length m] then
            match nth_error (insts w1) i with
            | Some s1 =>
                match in_px s1 with
                | Some p => change_mask w1 p (mv_data v)
                | None => (w1, Err AttributeError)
                end
            | None => (w1, Err NameError)
            end
          else (w1, Err ValueError)
      end
    else (w, Err RuntimeError)
  else (w, Err RuntimeError).

(** ** Indexing (dmdbase.py:493-539) *)

(** An element of a list key.  [bool] is a subclass of [int] in Python;
    everything that is not a Python int (floats, NumPy scalars, ...) is
    [EOther]. *)
Inductive kelem := EInt (z : Z) | EBool (b : bool) | EOther.

(** Keys.  [KArr size int_dtype]: a NumPy array; iterating it yields NumPy
    scalars or sub-arrays, never Python ints (object arrays are not modelled).
    [KBad]: any other type. dmdbase.py:507-530 *)
Inductive key := KInt (z : Z) | KBool (b : bool) | KSl (s : pyslice)
               | KList (l : list kelem) | KArr (size : nat) (int_dtype : bool)
               | KBad.

(** isinstance(x, int), dmdbase.py:515 *)
Definition elem_is_int (x : kelem) : bool :=
  match x with EOther => false | _ => true end.
(** a bool is an int for dmdbase.py:515 *)
Definition elem_is_bool (x : kelem) : bool :=
  match x with EBool _ => true | _ => false end.
(** the value of an index, dmdbase.py:532-533 *)
Definition elem_val (x : kelem) : Z :=
  match x with EInt z => z | EBool true => 1 | EBool false => 0 | EOther => 0 end%Z.

(** [len(key) != len(set(key))], Python equality being numeric. dmdbase.py:523-525 *)
Definition has_repeat (l : list Z) : bool :=
  negb (Nat.eqb (List.length (nodup Z.eq_dec l)) (List.length l)).

(** lines 514-530: validation of the key *)
Definition check_key (k : key) : result unit :=
  match k with
  | KInt _ | KBool _ | KSl _ => Ok tt
  | KList l =>
      if forallb elem_is_int l then
        if has_repeat (map elem_val l) then Err ValueError else Ok tt
      else Err ValueError
  | KArr size _ => if Nat.eqb size 0 then Ok tt else Err ValueError
  | KBad => Err ValueError
  end.

(** dmdbase.py:532-533 *)
Definition mask_of (n : nat) (ps : list nat) : list bool :=
  map (fun i => existsb (Nat.eqb i) ps) (seq 0 n).

(** index by index: NumPy's rule for negative and out-of-range indexes, dmdbase.py:533 *)
Fixpoint norm_all (n : nat) (l : list Z) : result (list nat) :=
  match l with
  | [] => Ok []
  | z :: t => match norm_index n z with
              | Some i => let! r := norm_all n t in Ok (i :: r)
              | None => Err IndexError end
  end.

(** lines 532-533: [mask = np.full(n, False); mask[key] = True].  A boolean
    scalar selects all or nothing; a non-empty list of booleans is a boolean
    index and must have length n; an empty list is an empty integer index. *)
Definition key_mask (n : nat) (k : key) : result (list bool) :=
  match k with
  | KInt z => match norm_index n z with
              | Some i => Ok (mask_of n [i]) | None => Err IndexError end
  | KBool b => Ok (repeat b n)
  | KSl s => let! ps := slice_positions n s in Ok (mask_of n ps)
  | KList l =>
      if negb (Nat.eqb (List.length l) 0) && forallb elem_is_bool l then
        if Nat.eqb (List.length l) n
        then Ok (map (fun x => match x with EBool b => b | _ => false end) l)
        else Err IndexError
      else let! ps := norm_all n (map elem_val l) in Ok (mask_of n ps)
  | KArr _ int_dtype => if int_dtype then Ok (repeat false n) else Err IndexError
  | KBad => Err ValueError
  end.

(** lines 514-539: [__getitem__]; the copy is shallow (line 535): it gets the
    same references, then its own proxy and its own mask.  When a later line
    raises, the half-built copy is unreachable, so the state is that before
    the copy. *)
Definition getitem (w : world) (i : nat) (s : inst) (k : key) : world * result nat :=
  match check_key k with
  | Err x => (w, Err x)
  | Ok _ =>
      let '(w1, r) := get_mask w i s in
      match r with
      | Err x => (w1, Err x)
      | Ok m =>
          match key_mask (List.length m) k with
          | Err x => (w1, Err x)
          | Ok mask =>
              match nth_error (insts w1) i with
              | None => (w1, Err NameError)
              | Some s1 =>
                  let j := List.length (insts w1) in
                  let w2 := add_inst w1 s1 in
                  let '(w3, r3) := allocate w2 j s1 in
                  match r3 with
                  | Err x => (w1, Err x)
                  | Ok s3 =>
                      let '(w4, r4) :=
                        set_mask w3 j s3 (mkMaskval true [List.length mask] mask) in
                      match r4 with
                      | Err x => (w1, Err x)
                      | Ok _ => (w4, Ok j)
                      end
                  end
              end
          end
      end
  end.

(** ** Time dictionaries (dmdbase.py:541-618, 759-774) *)

Definition time_keys : list string := ["t0"; "tend"; "dt"]%string.
(** dmdbase.py:760-769 *)
Definition valid_key (k : string) : bool :=
  existsb (String.eqb k) time_keys.

(** reading a dictionary, dmdbase.py:541-592 *)
Fixpoint d_get (d : list (string * Q)) (k : string) : option Q :=
  match d with
  | [] => None
  | (k', v) :: t => if String.eqb k k' then Some v else d_get t k
  end.
(** dict.__setitem__, dmdbase.py:760-769 *)
Fixpoint d_put (d : list (string * Q)) (k : string) (v : Q) : list (string * Q) :=
  match d with
  | [] => [(k, v)]
  | (k', v') :: t => if String.eqb k k' then (k', v) :: t else (k', v') :: d_put t k v
  end.
(** dict.__delitem__, inherited (dmdbase.py:759) *)
Fixpoint d_del (d : list (string * Q)) (k : string) : list (string * Q) :=
  match d with
  | [] => []
  | (k', v') :: t => if String.eqb k k' then t else (k', v') :: d_del t k
  end.

(** original_time or dmd_time, dmdbase.py:541-592 *)
Inductive which := Original | Dmd.
(** dmdbase.py:541-592 *)
Definition time_ref (s : inst) (a : which) : option nat :=
  match a with Original => in_ot s | Dmd => in_dt s end.

(** properties original_time / dmd_time (541-592): RuntimeError before fit *)
Definition get_time (w : world) (s : inst) (a : which) : result nat :=
  match time_ref s a with None => Err RuntimeError | Some d => Ok d end.

(** dmdbase.py:541-592 *)
Definition dict_at (w : world) (d : nat) : tdict := nth d (dicts w) (mkDict true []).

(** [inst.dmd_time[k] = v] (759-769; a plain dict accepts every key) *)
Definition time_setitem (w : world) (s : inst) (a : which) (k : string) (v : Q)
  : world * result unit :=
  match get_time w s a with
  | Err x => (w, Err x)
  | Ok d =>
      let D := dict_at w d in
      if d_checked D && negb (valid_key k) then (w, Err KeyError)
      else (set_dict w d (mkDict (d_checked D) (d_put (d_items D) k v)), Ok tt)
  end.

(** [inst.dmd_time.update({k: v})]: dict.update does not call the overridden
    [__setitem__]. Inherited method of the class of dmdbase.py:759-774 *)
Definition time_update (w : world) (s : inst) (a : which) (k : string) (v : Q)
  : world * result unit :=
  match get_time w s a with
  | Err x => (w, Err x)
  | Ok d =>
      let D := dict_at w d in
      (set_dict w d (mkDict (d_checked D) (d_put (d_items D) k v)), Ok tt)
  end.

(** [del inst.dmd_time[k]]. Inherited method of the class of dmdbase.py:759-774 *)
Definition time_delitem (w : world) (s : inst) (a : which) (k : string)
  : world * result unit :=
  match get_time w s a with
  | Err x => (w, Err x)
  | Ok d =>
      let D := dict_at w d in
      match d_get (d_items D) k with
      | None => (w, Err KeyError)
      | Some _ => (set_dict w d (mkDict (d_checked D) (d_del (d_items D) k)), Ok tt)
      end
  end.

(** setter of dmd_time (594-596): deepcopy, no validation.  [None] is Python's
    None.  Deep-copying a DMDTimeDict re-inserts its items through
    [__setitem__], so one that holds a foreign key raises KeyError. *)
Definition assign_time (w : world) (i : nat) (s : inst) (v : option tdict)
  : world * result unit :=
  match v with
  | None => (set_inst w i (mkInst (in_op s) (in_b s) (in_px s) (in_ot s) None (in_snap s)), Ok tt)
  | Some D =>
      if d_checked D && negb (forallb (fun kv => valid_key (fst kv)) (d_items D))
      then (w, Err KeyError)
      else
        let d := List.length (dicts w) in
        (set_inst (add_dict w D) i
           (mkInst (in_op s) (in_b s) (in_px s) (in_ot s) (Some d) (in_snap s)), Ok tt)
  end.

(** 598-618 called with the literal dictionary of dmd.py:76-78: two distinct
    DMDTimeDict objects; the key checks hold for the literal *)
Definition init_time (w : world) (i : nat) (s : inst) (n : nat) : world * inst :=
  let D := mkDict true
             [("t0", 0); ("tend", inject_Z (Z.of_nat n) - 1); ("dt", 1)]%string%Q in
  let d := List.length (dicts w) in
  let s' := mkInst (in_op s) (in_b s) (in_px s) (Some d) (Some (S d)) (in_snap s) in
  (set_inst (add_dict (add_dict w D) D) i s', s').

(** ** fit (dmd.py:59-82), with the points at which it can raise

    - [CSnap]: Snapshots(X) raises (59-60): only _reset happened;
    - [COper n]: compute_operator raises before the operator's eigenvalues are
      assigned (SVD, rescaling, eig);
    - [CEig n es]: it raises after assigning them and before assigning the
      modes (dmdoperator.py:213-280, e.g. an invalid sorted_eigs);
    - [CAmp n ms es]: _compute_amplitudes raises (dmd.py:80, e.g. opt out of
      range or a singular system), modes and time window are already set. *)
Inductive fit_run :=
| FitOk (n : nat) (ms es bs : list V)
| CSnap (x : exn)
| COper (n : nat) (x : exn)
| CEig (n : nat) (es : list V) (x : exn)
| CAmp (n : nat) (ms es : list V) (x : exn).

(** dmdbase.py:630-637: _reset *)
Definition reset (s : inst) : inst :=
  mkInst (in_op s) None None (in_ot s) (in_dt s) None.
(** assigning the snapshots, dmd.py:60 *)
Definition with_snap (s : inst) (n : nat) : inst :=
  mkInst (in_op s) (in_b s) (in_px s) (in_ot s) (in_dt s) (Some n).
(** assigning _b, dmdbase.py:178-197 *)
Definition with_b (s : inst) (b : loc) : inst :=
  mkInst (in_op s) (Some b) (in_px s) (in_ot s) (in_dt s) (in_snap s).

(** dmdoperator.py:96-97, 213 *)
Definition fit_eigs (w : world) (s : inst) (es : list V) : world :=
  let w1 := halloc w es in
  set_oper w1 (in_op s) (mkOper (o_modes (oper_of w s)) (Some (next w))).
(** dmdoperator.py:96-97, 280 *)
Definition fit_modes (w : world) (s : inst) (ms : list V) : world :=
  let w1 := halloc w ms in
  set_oper w1 (in_op s) (mkOper (Some (next w)) (o_eigs (oper_of w s))).

(** dmd.py:49-84, with the numbers it computes given by [fit_run] *)
Definition fit (w : world) (i : nat) (s : inst) (f : fit_run) : world * result unit :=
  let s0 := reset s in
  match f with
  | CSnap x => (set_inst w i s0, Err x)
  | COper n x => (set_inst w i (with_snap s0 n), Err x)
  | CEig n es x =>
      (fit_eigs (set_inst w i (with_snap s0 n)) (with_snap s0 n) es, Err x)
  | CAmp n ms es x =>
      let s1 := with_snap s0 n in
      let w1 := fit_modes (fit_eigs (set_inst w i s1) s1 es) s1 ms in
      let '(w2, _) := init_time w1 i s1 n in (w2, Err x)
  | FitOk n ms es bs =>
      let s1 := with_snap s0 n in
      let w1 := fit_modes (fit_eigs (set_inst w i s1) s1 es) s1 ms in
      let '(w2, s2) := init_time w1 i s1 n in
      let w3 := halloc w2 bs in
      (set_inst w3 i (with_b s2 (next w2)), Ok tt)
  end.

(** ** The interface as a transition system *)

(** the calls a user can make: dmdbase.py:200-680 *)
Inductive op :=
| New
| Fit (i : nat) (f : fit_run)
| Get (i : nat) (k : kind)                 (* read modes/eigs/amplitudes, keep the array *)
| Edit (h : nat) (j : nat) (v : V)         (* a[j] = v on the h-th array obtained *)
| GetMask (i : nat)
| SetMask (i : nat) (v : maskval)
| GetItem (i : nat) (k : key)
| TimeGet (i : nat) (a : which)
| TimeSet (i : nat) (a : which) (k : string) (v : Q)
| TimeUpdate (i : nat) (a : which) (k : string) (v : Q)
| TimeDel (i : nat) (a : which) (k : string)
| TimeAssign (i : nat) (v : option tdict)
| Fitted (i : nat).

(** what a call returns or raises: dmdbase.py:200-680 *)
Inductive out :=
| ORaise (x : exn)
| OUnit
| ONone
| OArr (a : list V)
| OMask (m : list bool)
| OInst (j : nat)
| ODict (d : list (string * Q))
| OBool (b : bool).

(** a call that returns nothing (setters of dmdbase.py:461-480, 595-596) *)
Definition of_unit (p : world * result unit) : world * out :=
  (fst p, match snd p with Ok _ => OUnit | Err x => ORaise x end).

(** the call is made on instance [i] (methods of dmdbase.py:106-774) *)
Definition with_inst (w : world) (i : nat) (f : inst -> world * out) : world * out :=
  match nth_error (insts w) i with
  | Some s => f s
  | None => (w, ORaise NameError)
  end.

(** one call: dmdbase.py:106-774 *)
Definition step (w : world) (o : op) : world * out :=
  match o with
  | New => (new_inst w, OInst (List.length (insts w)))
  | Fit i f => with_inst w i (fun s => of_unit (fit w i s f))
  | Get i k => with_inst w i (fun s =>
      let '(w1, r) := get_arr w i s k in
      match r with
      | Err x => (w1, ORaise x)
      | Ok None => (w1, ONone)
      | Ok (Some l) => (add_handle w1 l, OArr (hget w1 l))
      end)
  | Edit h j v =>
      match nth_error (handles w) h with
      | None => (w, ORaise NameError)
      | Some l =>
          if Nat.ltb j (List.length (hget w l))
          then (hset w l (upd (hget w l) j v), OUnit)
          else (w, ORaise IndexError)
      end
  | GetMask i => with_inst w i (fun s =>
      let '(w1, r) := get_mask w i s in
      (w1, match r with Ok m => OMask m | Err x => ORaise x end))
  | SetMask i v => with_inst w i (fun s => of_unit (set_mask w i s v))
  | GetItem i k => with_inst w i (fun s =>
      let '(w1, r) := getitem w i s k in
      (w1, match r with Ok j => OInst j | Err x => ORaise x end))
  | TimeGet i a => with_inst w i (fun s =>
      (w, match get_time w s a with
          | Ok d => ODict (d_items (dict_at w d)) | Err x => ORaise x end))
  | TimeSet i a k v => with_inst w i (fun s => of_unit (time_setitem w s a k v))
  | TimeUpdate i a k v => with_inst w i (fun s => of_unit (time_update w s a k v))
  | TimeDel i a k => with_inst w i (fun s => of_unit (time_delitem w s a k))
  | TimeAssign i v => with_inst w i (fun s => of_unit (assign_time w i s v))
  | Fitted i => with_inst w i (fun s => (w, OBool (fitted w s)))
  end.

(** before any instance exists (dmdbase.py:167) *)
Definition empty_world : world := mkWorld [] [] [] [] [] [].

(** a sequence of calls on dmdbase.py:106-774 *)
Fixpoint run (w : world) (os : list op) : world * list out :=
  match os with
  | [] => (w, [])
  | o :: t => let '(w1, x) := step w o in
              let '(w2, xs) := run w1 t in (w2, x :: xs)
  end.

(** What a client can observe of instance [i] in [w]: the outputs of reads.
    Reads of dmdbase.py:200-270, 393-480, 541-592 *)
Definition observe (w : world) (i : nat) : list out :=
  map (fun o => snd (step w o))
      [Fitted i; Get i KModes; Get i KEigs; Get i KAmps; GetMask i;
       TimeGet i Original; TimeGet i Dmd].

(** Contract of LAPACK on a fit: as many eigenvalues as modes and amplitudes;
    a crash inside leaves matching eigenvalues and modes when both were set.
    about dmdoperator.py:72-97 and dmd.py:49-84 *)
Definition fit_ok (f : fit_run) : Prop :=
  match f with
  | FitOk _ ms es bs => List.length ms = List.length es /\ List.length bs = List.length es
  | CAmp _ ms es _ => List.length ms = List.length es
  | _ => True
  end.
(** shape and data of a mask value agree. about the argument of dmdbase.py:461-480 *)
Definition maskval_ok (v : maskval) : Prop :=
  List.length (mv_data v) = fold_right Nat.mul 1%nat (mv_shape v).
(** about the arguments of the calls of dmdbase.py:200-680 *)
Definition op_ok (o : op) : Prop :=
  match o with Fit _ f => fit_ok f | SetMask _ v => maskval_ok v | _ => True end.

End Base.
Arguments world : clear implicits.
Arguments op : clear implicits.
Arguments out : clear implicits.
Arguments fit_run : clear implicits.
