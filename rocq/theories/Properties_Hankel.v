(** * C24, C25: HankelDMD time windows; Hankel pre/post-processing *)
From Coq Require Import List ZArith Lia Bool Arith QArith Qround Qcanon String.
From Verif Require Import Py NdArray Model_Utils Model_Hankel Spec_Hankel Proofs_Utils Proofs_Hankel.
Import ListNotations.
Local Open Scope nat_scope.
Local Notation length := List.length.

(** ** C25 *)
Theorem C25_first_inverts M (X : nd (qm_V M)) n m d : shape X = [n; m] -> 1 <= d <= m ->
  exists H R, hankel_pre d (numbers X) = Ok H /\ hankel_post (MStr "first") d H = Ok R /\ nd_eq R X.
Proof. exact (roundtrip_first M X n m d). Qed.
Print Assumptions C25_first_inverts.

Theorem C25_mean_inverts M (L : qmod_laws M) (X : nd (qm_V M)) n m d : shape X = [n; m] -> 1 <= d <= m ->
  exists H R, hankel_pre d (numbers X) = Ok H /\ hankel_post (MStr "mean") d H = Ok R /\ nd_eq R X.
Proof. exact (roundtrip_mean M L X n m d). Qed.
Print Assumptions C25_mean_inverts.

(** the delay matrix of X has columns starting at the time steps 0 .. m-d *)
Theorem C25_weights_invert M (L : qmod_laws M) (X : nd (qm_V M)) n m d ws : shape X = [n; m] -> 1 <= d <= m ->
  length ws = d -> (forall t, t < m -> block_weight ws 0 (m - d) d t <> Q2Qc 0) ->
  exists H R, hankel_pre d (numbers X) = Ok H /\ hankel_post (MWeights ws) d H = Ok R /\ nd_eq R X.
Proof. intros S Hd Hl W. exact (roundtrip_avg M L X n m d (MWeights ws) ws S Hd (or_introl (conj eq_refl Hl)) W). Qed.
Print Assumptions C25_weights_invert.

(** every time step of the output is covered by between 1 and d blocks *)
Theorem C25_blocks_available C d t : 1 <= d -> 1 <= C -> t < C + d - 1 ->
  1 <= block_count 0 (C - 1) d t <= d.
Proof. intros. apply count_pos; lia. Qed.
Print Assumptions C25_blocks_available.

(** block i of time t is block i of column t - i, and is missing otherwise *)
Theorem C25_block_table M (Y : nd (option (qm_V M))) n C d : shape Y = [d * n; C] -> 1 <= d ->
  exists tab, delay_table Y d = Ok tab /\ shape tab = [C + d - 1; d; n] /\
    (forall c i s, c < C -> i < d -> at_ tab [c + i; i; s] = at_ Y [i * n + s; c]) /\
    (forall t i s, i < d -> t < i \/ C + i <= t -> at_ tab [t; i; s] = None).
Proof.
  intros S Hd. destruct (table_ok M Y n C d S Hd) as (tab & E & St & At).
  exists tab. split; [exact E|]. split; [exact St|]. split.
  - intros c i s Hc Hi. rewrite At by auto. destruct (Nat.leb_spec i (c + i)); [|lia].
    destruct (Nat.ltb_spec (c + i) (C + i)); [|lia]. simpl. do 2 f_equal. f_equal. lia.
  - intros t i s Hi Ht. rewrite At by auto. destruct (Nat.leb_spec i t); auto.
    destruct (Nat.ltb_spec t (C + i)); auto. lia.
Qed.
Print Assumptions C25_block_table.

(** a time step whose available weights sum to zero comes back as zero *)
Theorem C25_zero_weight_refuted M (X : nd (qm_V M)) n m d ws s t : shape X = [n; m] -> 1 <= d <= m ->
  length ws = d -> s < n -> t < m -> block_weight ws 0 (m - d) d t = Q2Qc 0 ->
  exists H R, hankel_pre d (numbers X) = Ok H /\ hankel_post (MWeights ws) d H = Ok R /\
    at_ R [s; t] = qm_zero M.
Proof. exact (zero_weight M X n m d ws s t). Qed.
Print Assumptions C25_zero_weight_refuted.

(** what is refused *)
Theorem C25_errors M (Y : nd (option (qm_V M))) d rows C : shape Y = [rows; C] ->
  (1 <= d -> rows mod d <> 0 -> forall meth, hankel_post meth d Y = Err ValueError) /\
  (1 <= d -> rows mod d = 0 ->
     (forall name, name <> "first"%string -> name <> "mean"%string ->
        hankel_post (MStr name) d Y = Err UnboundLocalError) /\
     (forall ws, length ws <> d -> hankel_post (MWeights ws) d Y = Err ValueError) /\
     hankel_post MOther d Y = Err ValueError).
Proof. exact (post_errors M Y d rows C). Qed.
Print Assumptions C25_errors.

Theorem C25_window_too_long M (X : nd (option (qm_V M))) n m d : shape X = [n; m] -> m < d ->
  hankel_pre d X = Err ValueError.
Proof. exact (pseudo_hankel_err X n m d). Qed.
Print Assumptions C25_window_too_long.

(** ** C24 *)
(** one column per requested time step; column j is the state at time step
    t = a + j, read from the block with delay min(t, d-1) of the delay vector
    starting at t - min(t, d-1): the first delay vector containing t *)
Theorem C24_first M d n (inner : Qc -> nat -> option (qm_V M)) orig dmd a b :
  1 <= d -> a <= b -> aligned orig dmd a b ->
  exists R, hankel_reconstructed (MStr "first") d (d * n) inner orig dmd = Ok R /\ shape R = [n; b - a + 1] /\
    forall s j, j < b - a + 1 -> let t := a + j in let i := Nat.min t (d - 1) in
      at_ R [s; j] = fill M (inner (Qcn (t - i)) (i * n + s)).
Proof. exact (reconstructed_first M d n inner orig dmd a b). Qed.
Print Assumptions C24_first.

(** 'mean' and explicit weights: the average over the delays i of block i of
    the delay vector starting at t - i, for the vectors in the inner window *)
Theorem C24_average M d n (inner : Qc -> nat -> option (qm_V M)) orig dmd a b meth ws (y : nat -> nat -> qm_V M) :
  1 <= d -> a <= b -> aligned orig dmd a b -> known_method meth d ws ->
  (forall k r, inner (Qcn k) r = Some (y k r)) ->
  (forall t, a <= t <= b -> block_weight ws (a - (d - 1)) (b - (d - 1)) d t <> Q2Qc 0) ->
  exists R, hankel_reconstructed meth d (d * n) inner orig dmd = Ok R /\ shape R = [n; b - a + 1] /\
    forall s j, j < b - a + 1 -> let t := a + j in
      let k0 := a - (d - 1) in let k1 := b - (d - 1) in
      at_ R [s; j] = qm_scale M (/ block_weight ws k0 k1 d t)%Qc
                       (block_sum M ws k0 k1 d t (fun i => y (t - i) (i * n + s))).
Proof. exact (reconstructed_mean_values M d n inner orig dmd a b meth ws y). Qed.
Print Assumptions C24_average.

(** the weights of 'mean' never vanish *)
Theorem C24_mean_weights d a b t : 1 <= d -> a <= t <= b ->
  block_weight (repeat (Q2Qc 1) d) (a - (d - 1)) (b - (d - 1)) d t
    = Qcn (block_count (a - (d - 1)) (b - (d - 1)) d t) /\
  1 <= block_count (a - (d - 1)) (b - (d - 1)) d t <= d.
Proof. intros Hd H. split; [apply weight_repeat|]. apply count_pos; lia. Qed.
Print Assumptions C24_mean_weights.

(** an inner DMD that reproduces the delay vectors of a trajectory gives back
    that trajectory, in and beyond the training window *)
Theorem C24_exact M (L : qmod_laws M) d n (inner : Qc -> nat -> option (qm_V M)) orig dmd a b meth x :
  1 <= d -> a <= b -> aligned orig dmd a b ->
  meth = MStr "first" \/ meth = MStr "mean" \/
    (exists ws, meth = MWeights ws /\ length ws = d /\
       forall t, a <= t <= b -> block_weight ws (a - (d - 1)) (b - (d - 1)) d t <> Q2Qc 0) ->
  tracks M n d inner x (a - (d - 1)) (b - (d - 1)) ->
  exists R, hankel_reconstructed meth d (d * n) inner orig dmd = Ok R /\ shape R = [n; b - a + 1] /\
    forall s j, s < n -> j < b - a + 1 -> at_ R [s; j] = x (a + j) s.
Proof. exact (reconstructed_exact M L d n inner orig dmd a b meth x). Qed.
Print Assumptions C24_exact.

(** with 'first' the state returned for a time step does not depend on the window *)
Theorem C24_first_window_free M d n (inner : Qc -> nat -> option (qm_V M)) orig dmd dmd' a b a' b' :
  1 <= d -> a <= b -> a' <= b' -> aligned orig dmd a b -> aligned orig dmd' a' b' ->
  exists R R', hankel_reconstructed (MStr "first") d (d * n) inner orig dmd = Ok R /\
    hankel_reconstructed (MStr "first") d (d * n) inner orig dmd' = Ok R' /\
    forall t s, a <= t <= b -> a' <= t <= b' -> at_ R [s; t - a] = at_ R' [s; t - a'].
Proof. exact (first_window_free M d n inner orig dmd dmd' a b a' b'). Qed.
Print Assumptions C24_first_window_free.

Theorem C24_fit M (X : nd (option (qm_V M))) n m d : shape X = [n; m] -> 1 <= n -> 1 <= d -> d < m -> 2 <= m ->
  exists H tm, hankel_fit d (SArr X) = Ok (H, tm) /\ shape H = [d * n; m - d + 1] /\
    (forall k i s, k < m - d + 1 -> i < d -> s < n -> at_ H [i * n + s; k] = at_ X [s; k + i]) /\
    (tm_t0 tm == 0)%Q /\ (tm_tend tm == inject_Z (Z.of_nat m - 1))%Q /\ (tm_dt tm == 1)%Q.
Proof. exact (fit_ok M X n m d). Qed.
Print Assumptions C24_fit.

(** d snapshots are "at least d" but are refused too *)
Theorem C24_fit_short M (X : nd (option (qm_V M))) n m d : shape X = [n; m] -> 1 <= d -> m <= d -> 1 <= m ->
  hankel_fit d (SArr X) = Err ValueError.
Proof. exact (fit_short M X n m d). Qed.
Print Assumptions C24_fit_short.

(** HODMD: projection, delay embedding, reconstruction, lifting back *)
Theorem C24_hodmd_exact M (L : qmod_laws M) d n r lift proj (inner : Qc -> nat -> option (qm_V M)) orig dmd a b meth x :
  1 <= d -> a <= b -> aligned orig dmd a b ->
  meth = MStr "first" \/ meth = MStr "mean" \/
    (exists ws, meth = MWeights ws /\ length ws = d /\
       forall t, a <= t <= b -> block_weight ws (a - (d - 1)) (b - (d - 1)) d t <> Q2Qc 0) ->
  tracks M r d inner (fun t => proj (x t)) (a - (d - 1)) (b - (d - 1)) ->
  (forall u v, (forall i, i < r -> u i = v i) -> forall s, s < n -> lift u s = lift v s) ->
  (forall t s, a <= t <= b -> s < n -> lift (proj (x t)) s = x t s) ->
  exists R, hodmd_reconstructed lift n meth d (d * r) inner orig dmd = Ok R /\ shape R = [n; b - a + 1] /\
    forall s j, s < n -> j < b - a + 1 -> at_ R [s; j] = x (a + j) s.
Proof. exact (hodmd_exact M L d n r lift proj inner orig dmd a b meth x). Qed.
Print Assumptions C24_hodmd_exact.

Theorem C24_hodmd_fit M d proj (X : snap_input (option (qm_V M))) S0 s0 n m r :
  snapshots X = Ok (S0, s0) -> shape S0 = [n; m] -> shape (proj S0) = [r; m] -> 1 <= d < m ->
  exists H tm, hodmd_fit d proj X = Ok (H, tm) /\ shape H = [d * r; m - d + 1] /\
    (forall k i s, k < m - d + 1 -> i < d -> s < r -> at_ H [i * r + s; k] = at_ (proj S0) [s; k + i]) /\
    (tm_t0 tm == 0)%Q /\ (tm_tend tm == inject_Z (Z.of_nat m - 1))%Q /\ (tm_dt tm == 1)%Q.
Proof. exact (hodmd_fit_any M d proj X S0 s0 n m r). Qed.
Print Assumptions C24_hodmd_fit.

(** HankelDMD itself refuses what the other classes accept: a list of
    snapshots, or snapshots with more than one axis *)
Theorem C24_fit_iterable_refuted M d :
  (forall l S0 s0 n m, snapshots (SList l) = Ok (S0, s0) -> shape S0 = [n; m] -> d <= m ->
     hankel_fit (M:=M) d (SList l) = Err AttributeError) /\
  (forall (a : nd (option (qm_V M))) p q m, shape a = [p; q; m] -> 2 <= m -> hankel_fit (M:=M) d (SArr a) = Err ValueError).
Proof.
  split.
  - intros l S0 s0 n m E S H. unfold hankel_fit. rewrite E. cbn [bind fst]. rewrite S.
    destruct (Nat.ltb_spec m d); [lia|]. reflexivity.
  - intros a p q m S Hm. unfold hankel_fit.
    destruct (snapshots_array a [p; q] m S ltac:(discriminate) Hm) as (S0 & E & SS & _). rewrite E. cbn [bind fst].
    rewrite SS. destruct (_ <? _); [reflexivity|]. unfold hankel_pre, pseudo_hankel. rewrite S. reflexivity.
Qed.
Print Assumptions C24_fit_iterable_refuted.

(** *** Where the bookkeeping goes wrong.  The inner DMD below reproduces the
    scalar trajectory x(t) = t exactly, at every time. *)
Definition ramp : Qc -> nat -> option (qm_V QcM) := fun q r => Some (q + Qcn r)%Qc.
Lemma ramp_tracks d k0 k1 : tracks QcM 1 d ramp (fun t _ => Qcn t) k0 k1.
Proof.
  intros k i s Hk Hi Hs. unfold ramp. apply (f_equal (@Some Qc)). replace (i * 1 + s) with i by lia.
  unfold Qcn. apply Qc_is_canon. unfold Qcplus, Q2Qc, this. rewrite !Qred_correct, Nat2Z.inj_add, inject_Z_plus. reflexivity.
Qed.

(** original_time["t0"] = 1: the columns returned for times 3 and 4 (two and
    three steps after the first snapshot) are x(1) and x(2) *)
Theorem C24_origin_refuted : exists orig dmd R,
  (tm_t0 orig == 1)%Q /\ (tm_dt orig == 1)%Q /\ (tm_dt dmd == 1)%Q /\ (tm_t0 dmd == 3)%Q /\ (tm_tend dmd == 4)%Q /\
  hankel_reconstructed (MStr "first") 2 2 ramp orig dmd = Ok R /\ shape R = [1; 2] /\
  at_ R [0; 0] = Qcn 1 /\ at_ R [0; 1] = Qcn 2.
Proof.
  exists (mkTimes 1 5 1), (mkTimes 3 4 1). eexists.
  do 5 (split; [reflexivity|]). split; [reflexivity|]. split; [vm_compute; reflexivity|].
  split; apply Qc_is_canon; vm_compute; reflexivity.
Qed.
Print Assumptions C24_origin_refuted.

(** dmd_time["dt"] = 1/2: the column returned for time 1 is x(2) *)
Theorem C24_time_step_refuted : exists orig dmd R ts,
  (tm_t0 orig == 0)%Q /\ (tm_dt orig == 1)%Q /\ (tm_dt dmd == 1 # 2)%Q /\ (tm_t0 dmd == 0)%Q /\ (tm_tend dmd == 1)%Q /\
  hankel_reconstructed (MStr "first") 2 2 ramp orig dmd = Ok R /\ shape R = [1; 3] /\
  timesteps (tm_t0 dmd) (tm_tend dmd) (tm_dt dmd) = Ok ts /\ (nth 2 ts 0 == 1)%Q /\
  at_ R [0; 2] = Qcn 2.
Proof.
  exists (mkTimes 0 4 1), (mkTimes 0 1 (1 # 2)). do 2 eexists.
  do 5 (split; [reflexivity|]). split; [reflexivity|]. split; [vm_compute; reflexivity|].
  split; [reflexivity|]. split; [vm_compute; reflexivity|].
  apply Qc_is_canon; vm_compute; reflexivity.
Qed.
Print Assumptions C24_time_step_refuted.

(** a window that starts before the first snapshot, or ends between two time
    steps, gets fewer columns than it has time steps *)
Theorem C24_columns_refuted :
  (exists R ts, hankel_reconstructed (MStr "first") 2 2 ramp (mkTimes 0 4 1) (mkTimes (-(2)) 0 1) = Ok R /\
     timesteps (-(2)) 0 1 = Ok ts /\ length ts = 3 /\ shape R = [1; 1]) /\
  (exists R ts, hankel_reconstructed (MStr "first") 2 2 ramp (mkTimes 0 4 1) (mkTimes 0 (3 # 2) 1) = Ok R /\
     timesteps 0 (3 # 2) 1 = Ok ts /\ length ts = 3 /\ shape R = [1; 2]).
Proof. split; do 2 eexists; (split; [reflexivity|]); (split; [reflexivity|]); split; vm_compute; reflexivity. Qed.
Print Assumptions C24_columns_refuted.

(** with 'mean' the state returned for a time step does depend on the window:
    an inner DMD that is not exact, asked for time step 1 alone and for 1 .. 2 *)
Definition skew : Qc -> nat -> option (qm_V QcM) := fun q r => Some (if r =? 0 then q else Qcn 5)%Qc.
Theorem C24_mean_window_refuted : exists R R',
  hankel_reconstructed (MStr "mean") 2 2 skew (mkTimes 0 4 1) (mkTimes 1 1 1) = Ok R /\
  hankel_reconstructed (MStr "mean") 2 2 skew (mkTimes 0 4 1) (mkTimes 1 2 1) = Ok R' /\
  at_ R [0; 0] = Qcn 5 /\ at_ R' [0; 0] = Qcn 3.
Proof.
  do 2 eexists. split; [reflexivity|]. split; [reflexivity|].
  split; apply Qc_is_canon; vm_compute; reflexivity.
Qed.
Print Assumptions C24_mean_window_refuted.

(** ** Examples *)
(** two sensors, five snapshots, d = 3 *)
Definition exX : nd (qm_V QcM) :=
  mkNd [2; 5] (fun idx => match idx with [s; t] => Qcn (10 * s + t * t) | _ => Qcn 0 end).
Example ex_C25_first : exists H R, hankel_pre 3 (numbers exX) = Ok H /\
  hankel_post (MStr "first") 3 H = Ok R /\ nd_eq R exX.
Proof. apply (C25_first_inverts QcM exX 2 5 3 eq_refl). lia. Qed.
Example ex_C25_mean : exists H R, hankel_pre 3 (numbers exX) = Ok H /\
  hankel_post (MStr "mean") 3 H = Ok R /\ nd_eq R exX.
Proof. apply (C25_mean_inverts QcM QcM_laws exX 2 5 3 eq_refl). lia. Qed.
Definition ex_ws : list Qc := [Qcn 3; Qcn 1; Qcn 2].
Lemma ex_ws_nz k0 k1 t : k0 <= t <= k1 + 2 -> k0 <= k1 -> block_weight ex_ws k0 k1 3 t <> Q2Qc 0.
Proof.
  intros H1 H2. unfold block_weight, ex_ws. cbn [seq combine fold_right fst snd].
  assert (B : has_block k0 k1 3 t 0 = true \/ has_block k0 k1 3 t 1 = true \/ has_block k0 k1 3 t 2 = true).
  { unfold has_block. rewrite !andb_true_iff, !Nat.leb_le, !Nat.ltb_lt. lia. }
  destruct (has_block k0 k1 3 t 0), (has_block k0 k1 3 t 1), (has_block k0 k1 3 t 2);
    try (intros E; apply Q2Qc_eq_iff in E; vm_compute in E; discriminate).
  destruct B as [B|[B|B]]; discriminate.
Qed.
Example ex_C25_weights : exists H R, hankel_pre 3 (numbers exX) = Ok H /\
  hankel_post (MWeights ex_ws) 3 H = Ok R /\ nd_eq R exX.
Proof.
  apply (C25_weights_invert QcM QcM_laws exX 2 5 3 ex_ws eq_refl); auto; try lia.
  intros t Ht. apply ex_ws_nz; lia.
Qed.
(** weights 1, -1: the second time step has both blocks and comes back as zero *)
Example ex_C25_zero : exists H R, hankel_pre 2 (numbers exX) = Ok H /\
  hankel_post (MWeights [Qcn 1; (- Qcn 1)%Qc]) 2 H = Ok R /\ at_ R [1; 1] = Q2Qc 0 /\ at_ exX [1; 1] = Qcn 11.
Proof.
  destruct (C25_zero_weight_refuted QcM exX 2 5 2 [Qcn 1; (- Qcn 1)%Qc] 1 1 eq_refl) as (H & R & E1 & E2 & E3);
    try lia; [reflexivity| |].
  - apply Qc_is_canon. vm_compute. reflexivity.
  - exists H, R. split; [exact E1|]. split; [exact E2|]. split; [exact E3|reflexivity].
Qed.
Example ex_C25_blocks : map (block_count 0 2 3) [0; 1; 2; 3; 4] = [1; 2; 3; 2; 1]. Proof. reflexivity. Qed.
Example ex_C25_errors : hankel_post (M:=QcM) (MStr "median") 2 (numbers exX) = Err UnboundLocalError /\
  hankel_post (M:=QcM) (MStr "first") 3 (numbers exX) = Err ValueError.
Proof. split; reflexivity. Qed.

(** window 5 .. 7 of a trajectory, beyond five training snapshots, dt = 1/4 *)
Lemma ex_aligned : aligned (mkTimes 0 1 (1 # 4)) (mkTimes (5 # 4) (7 # 4) (1 # 4)) 5 7.
Proof. constructor; simpl; try reflexivity. discriminate. Qed.
Example ex_C24_exact : exists R,
  hankel_reconstructed (MWeights ex_ws) 3 3 ramp (mkTimes 0 1 (1 # 4)) (mkTimes (5 # 4) (7 # 4) (1 # 4)) = Ok R /\
  shape R = [1; 3] /\ forall j, j < 3 -> at_ R [0; j] = Qcn (5 + j).
Proof.
  destruct (C24_exact QcM QcM_laws 3 1 ramp _ _ 5 7 (MWeights ex_ws) (fun t _ => Qcn t)
              ltac:(lia) ltac:(lia) ex_aligned) as (R & E & S & A).
  - right. right. exists ex_ws. split; [reflexivity|]. split; [reflexivity|]. intros t Ht. apply ex_ws_nz; lia.
  - apply ramp_tracks.
  - exists R. split; [exact E|]. split; [exact S|]. intros j Hj. apply A; lia.
Qed.
Example ex_C24_average : exists R,
  hankel_reconstructed (MStr "mean") 2 2 skew (mkTimes 0 4 1) (mkTimes 1 2 1) = Ok R /\ shape R = [1; 2] /\
  at_ R [0; 0] = ((/ Qcn 2) * (Qcn 1 + Qcn 5))%Qc.
Proof.
  destruct (C24_average QcM 2 1 skew (mkTimes 0 4 1) (mkTimes 1 2 1) 1 2 (MStr "mean") (repeat (Q2Qc 1) 2)
     (fun k r => if r =? 0 then Qcn k else Qcn 5)) as (R & E & S & A); try lia.
  - constructor; simpl; try reflexivity. discriminate.
  - right. split; reflexivity.
  - intros k r. unfold skew. destruct (r =? 0); reflexivity.
  - intros t Ht. destruct (C24_mean_weights 2 1 2 t ltac:(lia) Ht) as [-> Hc]. apply Qcn_nz. lia.
  - exists R. split; [exact E|]. split; [exact S|]. rewrite A by lia. apply Qc_is_canon. vm_compute. reflexivity.
Qed.
Example ex_C24_fit : exists H tm, hankel_fit (M:=QcM) 3 (SArr (numbers exX)) = Ok (H, tm) /\ shape H = [6; 3] /\
  at_ H [3; 1] = at_ (numbers exX) [1; 2] /\ (tm_tend tm == 4)%Q.
Proof.
  destruct (C24_fit QcM (numbers exX) 2 5 3 eq_refl ltac:(lia) ltac:(lia) ltac:(lia) ltac:(lia))
    as (H & tm & E & S & A & _ & T & _).
  exists H, tm. split; [exact E|]. split; [exact S|]. split; [exact (A 1 1 1 ltac:(lia) ltac:(lia) ltac:(lia))|exact T].
Qed.
(** HODMD: both sensors equal, projected onto their common value *)
Example ex_C24_hodmd : exists R,
  hodmd_reconstructed (fun u _ => u 0) 2 (MStr "first") 2 2 ramp (mkTimes 0 4 1) (mkTimes 3 5 1) = Ok R /\
  shape R = [2; 3] /\ forall s j, s < 2 -> j < 3 -> at_ R [s; j] = Qcn (3 + j).
Proof.
  apply (C24_hodmd_exact QcM QcM_laws 2 2 1 (fun u _ => u 0) (fun u i => u i) ramp _ _ 3 5 (MStr "first") (fun t _ => Qcn t));
    try lia; auto.
  - constructor; simpl; try reflexivity. discriminate.
  - apply ramp_tracks.
Qed.

(** The constructor: weights in a list or an array must be as many as the delays ... *)
Theorem C24_weights_checked m d : hankel_init m d = Err ValueError <->
  (exists ws, m = AList ws /\ length ws <> d) \/
  (exists nd ws, m = AArray nd ws /\ (1 < nd \/ nd = 1 /\ length ws <> d)).
Proof.
  split.
  - destruct m as [s|ws|ws|[|nd] ws|]; simpl; try discriminate.
    + destruct (Nat.eqb_spec (length ws) d); [discriminate|]. intros _. left. exists ws. auto.
    + intros H. right. exists (S nd), ws. split; [reflexivity|].
      destruct (Nat.ltb_spec 1 (S nd)); [left; assumption|]. right. split; [lia|].
      simpl in H. destruct (Nat.eqb_spec (length ws) d); [discriminate|assumption].
  - intros [[ws [-> H]]|[nd [ws [-> H]]]]; simpl.
    + destruct (Nat.eqb_spec (length ws) d); [contradiction|reflexivity].
    + destruct nd as [|nd]; [lia|]. destruct (Nat.ltb_spec 1 (S nd)); [reflexivity|]. simpl.
      destruct (Nat.eqb_spec (length ws) d); [lia|reflexivity].
Qed.
Print Assumptions C24_weights_checked.
(** ... and are then the weights of the reconstruction. *)
Theorem C24_weights_kept ws d : length ws = d ->
  hankel_init (AList ws) d = Ok (MWeights ws) /\ hankel_init (ATuple ws) d = Ok (MWeights ws) /\
  hankel_init (AArray 1 ws) d = Ok (MWeights ws) /\ forall s, hankel_init (AStr s) d = Ok (MStr s).
Proof. intros <-. simpl. rewrite Nat.eqb_refl. auto. Qed.
Print Assumptions C24_weights_kept.
(** A tuple of another length, an unknown name or any other object are only refused when the data are reconstructed. *)
Theorem C24_weights_unchecked_refuted M (Y : nd (option (qm_V M))) d rows C m : shape Y = [rows; C] -> 1 <= d -> rows mod d = 0 ->
  (exists ws, m = ATuple ws /\ length ws <> d) \/ (exists s, m = AStr s /\ s <> "first"%string /\ s <> "mean"%string) \/ m = AElse ->
  exists meth e, hankel_init m d = Ok meth /\ hankel_post meth d Y = Err e.
Proof.
  intros S D R H. destruct (C25_errors M Y d rows C S) as [_ E]. destruct (E D R) as (E1 & E2 & E3).
  destruct H as [[ws [-> H]]|[[s [-> [H1 H2]]]| ->]]; simpl.
  - exists (MWeights ws), ValueError. auto.
  - exists (MStr s), UnboundLocalError. auto.
  - exists MOther, ValueError. auto.
Qed.
Print Assumptions C24_weights_unchecked_refuted.
Example ex_C24_weights : hankel_init (AList [Qcn 1; Qcn 2]) 3 = Err ValueError /\ hankel_init (AArray 2 [Qcn 1; Qcn 2]) 2 = Err ValueError /\
  hankel_init (ATuple [Qcn 1]) 2 = Ok (MWeights [Qcn 1]).
Proof. repeat split. Qed.
