(** * C06, C09, C10, C11, C52: time steps, snapshots, rank selection, pseudo-Hankel, finite differences *)
From Coq Require Import List ZArith Lia Bool Arith QArith Qround Permutation Lqa Sorted.
From Verif Require Import Py NdArray Model_Utils Spec_Utils Proofs_Utils.
Import ListNotations.
Local Open Scope Q_scope.
Local Notation length := List.length.

(** ** C06 *)
(** the entries are t0 + k*dt, there is at least one, and the last one is the
    only one at or beyond tend (dt may be negative, with tend <= t0) *)
Theorem C06_timesteps_progression t0 tend dt : ~ dt == 0 -> 0 <= (tend - t0) / dt ->
  exists ts, timesteps t0 tend dt = Ok ts /\ (0 < length ts)%nat /\
    (forall k, (k < length ts)%nat -> nth k ts 0 == t0 + inject_Z (Z.of_nat k) * dt) /\
    (forall k, (k < length ts)%nat ->
       ((tend - t0) / dt <= (nth k ts 0 - t0) / dt <-> k = (length ts - 1)%nat)).
Proof. exact (timesteps_spec t0 tend dt). Qed.
Print Assumptions C06_timesteps_progression.

Theorem C06_first_and_last t0 tend dt : 0 < dt -> t0 <= tend ->
  exists ts, timesteps t0 tend dt = Ok ts /\ (0 < length ts)%nat /\
    nth 0 ts 0 == t0 /\ tend <= last ts 0 /\ last ts 0 < tend + dt.
Proof. exact (timesteps_last t0 tend dt). Qed.
Print Assumptions C06_first_and_last.

Theorem C06_aligned_window t0 tend dt k : ~ dt == 0 -> tend == t0 + inject_Z (Z.of_nat k) * dt ->
  exists ts, timesteps t0 tend dt = Ok ts /\ length ts = S k /\ nth k ts 0 == tend.
Proof. exact (timesteps_exact t0 tend dt k). Qed.
Print Assumptions C06_aligned_window.

Theorem C06_window_ending_before_it_starts t0 tend dt : 0 < dt -> tend <= t0 - dt ->
  timesteps t0 tend dt = Ok [].
Proof. exact (timesteps_empty t0 tend dt). Qed.
Print Assumptions C06_window_ending_before_it_starts.

Theorem C06_zero_step_raises t0 tend dt : dt == 0 -> timesteps t0 tend dt = Err ZeroDivisionError.
Proof. exact (timesteps_zero t0 tend dt). Qed.
Print Assumptions C06_zero_step_raises.

(** "the time steps stay inside [t0, tend]" is false *)
Theorem C06_steps_stay_in_window_refuted :
  exists t0 tend dt ts, 0 < dt /\ t0 <= tend /\ timesteps t0 tend dt = Ok ts /\
    exists t, In t ts /\ tend < t.
Proof. exact timesteps_overshoot. Qed.
Print Assumptions C06_steps_stay_in_window_refuted.

Example C06_example : timesteps 1 3 (1 # 2) = Ok (map (fun k => 1 + inject_Z (Z.of_nat k) * (1 # 2)) (seq 0 5))
  /\ ~ (1 # 2) == 0 /\ 0 <= (3 - 1) / (1 # 2) /\ 3 == 1 + inject_Z (Z.of_nat 4) * (1 # 2).
Proof. repeat split; try (vm_compute; congruence). Qed.

(** ** C09 *)
Theorem C09_array_input {A} (a : nd A) s m : shape a = s ++ [m] -> s <> [] -> (2 <= m)%nat ->
  exists S, snapshots (SArr a) = Ok (S, s) /\ shape S = [size s; m] /\
    forall i j, (i < size s)%nat -> (j < m)%nat -> at_ S [i; j] = at_ (slice_last a s j) (unravel s i).
Proof. exact (snapshots_array a s m). Qed.
Print Assumptions C09_array_input.

Theorem C09_list_input {A} (a : nd A) l s : s <> [] -> l <> [] -> Forall (fun b => shape b = s) (a :: l) ->
  exists S, snapshots (SList (a :: l)) = Ok (S, s) /\ shape S = [size s; length (a :: l)] /\
    forall i j, (i < size s)%nat -> (j < length (a :: l))%nat ->
      at_ S [i; j] = at_ (nth j (a :: l) a) (unravel s i).
Proof. exact (snapshots_list a l s). Qed.
Print Assumptions C09_list_input.

Theorem C09_list_and_array_agree {A} (a : nd A) s m : shape a = s ++ [m] -> s <> [] -> (2 <= m)%nat ->
  exists S S', snapshots (SArr a) = Ok (S, s) /\
    snapshots (SList (map (slice_last a s) (seq 0 m))) = Ok (S', s) /\ nd_eq S S'.
Proof. exact (snapshots_agree a s m). Qed.
Print Assumptions C09_list_and_array_agree.

(** reshaping a column of the matrix to the returned shape gives the snapshot back *)
Theorem C09_snapshot_is_recoverable {A} (a : nd A) s m : shape a = s ++ [m] -> s <> [] -> (2 <= m)%nat ->
  exists S, snapshots (SArr a) = Ok (S, s) /\ forall j, (j < m)%nat ->
    nd_eq (reshape (mkNd [size s] (fun i => at_ S (i ++ [j]))) s) (slice_last a s j).
Proof. exact (snapshots_recover a s m). Qed.
Print Assumptions C09_snapshot_is_recoverable.

(** exactly these inputs are rejected *)
Theorem C09_array_rejected {A} (a : nd A) :
  (exists x, snapshots (SArr a) = Err x) <->
  (length (shape a) <= 1)%nat \/ last (shape a) 0%nat = 0%nat \/ last (shape a) 0%nat = 1%nat.
Proof. exact (snapshots_array_rejects a). Qed.
Print Assumptions C09_array_rejected.

Theorem C09_list_rejected {A} (l : list (nd A)) :
  (exists x, snapshots (SList l) = Err x) <->
  (length l <= 1)%nat \/ (exists a b, In a l /\ In b l /\ shape a <> shape b) \/
  (exists a, In a l /\ shape a = []).
Proof. exact (snapshots_list_rejects l). Qed.
Print Assumptions C09_list_rejected.

Theorem C09_rejections_are_value_errors {A} (X : snap_input A) x : snapshots X = Err x ->
  x = ValueError \/ (x = IndexError /\ exists a, X = SArr a /\ shape a = []).
Proof. exact (snapshots_error X x). Qed.
Print Assumptions C09_rejections_are_value_errors.

Example C09_example :
  let a := mkNd [2; 3; 4]%nat (fun idx => ravel [2; 3; 4]%nat idx) in
  shape a = [2; 3]%nat ++ [4%nat] /\ (exists S, snapshots (SArr a) = Ok (S, [2; 3]%nat) /\ at_ S [5; 3]%nat = 23%nat).
Proof. simpl. split; [reflexivity|]. eexists. split; reflexivity. Qed.

(** ** C10 *)
Theorem C10_integer_rank sigma rows cols z : (1 <= z)%Z -> length sigma = Nat.min rows cols ->
  compute_rank sigma rows cols (RInt z) = Nat.min (Z.to_nat z) (Nat.min rows cols).
Proof. intros H L. rewrite <- L. exact (rank_int_case sigma rows cols z H). Qed.
Print Assumptions C10_integer_rank.

(** svd_rank = 0: the number of singular values above median * omega(beta), at
    least 1; [s] is the list of singular values in non-decreasing order *)
Theorem C10_optimal_rank sigma rows cols r s : rank_val r == 0 ->
  Permutation s sigma -> StronglySorted Qle s ->
  exists t, compute_rank sigma rows cols r = Nat.max 1 (count_above t sigma) /\
    let n := length sigma in
    let b := rat (Nat.min rows cols) / rat (Nat.max rows cols) in
    t == (nth ((n - 1) / 2) s 0 + nth (n / 2) s 0) / 2 *
         ((56 # 100) * (b * b * b) - (95 # 100) * (b * b) + (182 # 100) * b + (143 # 100)).
Proof. exact (optimal_rank sigma rows cols r s). Qed.
Print Assumptions C10_optimal_rank.

(** so it keeps at most half of the singular values ... *)
Theorem C10_optimal_rank_at_most_half sigma rows cols r : rank_val r == 0 ->
  (0 < rows)%nat -> (0 < cols)%nat -> sigma <> [] -> Forall (fun s => 0 <= s) sigma ->
  (1 <= compute_rank sigma rows cols r <= Nat.max 1 (length sigma / 2))%nat.
Proof. exact (optimal_half sigma rows cols r). Qed.
Print Assumptions C10_optimal_rank_at_most_half.

(** ... and does not depend on the unit of the data *)
Theorem C10_optimal_rank_scale_invariant c sigma rows cols r : rank_val r == 0 -> 0 < c ->
  compute_rank (map (Qmult c) sigma) rows cols r = compute_rank sigma rows cols r.
Proof. exact (optimal_scale c sigma rows cols r). Qed.
Print Assumptions C10_optimal_rank_scale_invariant.

(** a fraction: the least number of singular values carrying that share of the energy *)
Theorem C10_energy_rank sigma rows cols r : 0 < rank_val r -> rank_val r < 1 ->
  0 < energy sigma (length sigma) ->
  let k := compute_rank sigma rows cols r in
  (1 <= k <= length sigma)%nat /\
  rank_val r * energy sigma (length sigma) <= energy sigma k /\
  forall j, (j < k)%nat -> energy sigma j < rank_val r * energy sigma (length sigma).
Proof. exact (frac_rank sigma rows cols r). Qed.
Print Assumptions C10_energy_rank.

Theorem C10_energy_rank_monotone sigma rows cols r1 r2 : 0 < rank_val r1 -> rank_val r1 <= rank_val r2 ->
  rank_val r2 < 1 -> 0 < energy sigma (length sigma) ->
  (compute_rank sigma rows cols r1 <= compute_rank sigma rows cols r2)%nat.
Proof. exact (frac_rank_mono sigma rows cols r1 r2). Qed.
Print Assumptions C10_energy_rank_monotone.

Theorem C10_no_truncation sigma rows cols r :
  rank_val r < 0 \/ (1 <= rank_val r /\ rank_is_int r = false) ->
  compute_rank sigma rows cols r = Nat.min rows cols.
Proof. exact (rank_other_case sigma rows cols r). Qed.
Print Assumptions C10_no_truncation.

Theorem C10_rank_in_range sigma rows cols r : (0 < rows)%nat -> (0 < cols)%nat ->
  length sigma = Nat.min rows cols -> Forall (fun s => 0 <= s) sigma ->
  (1 <= compute_rank sigma rows cols r <= Nat.min rows cols)%nat.
Proof. exact (rank_range sigma rows cols r). Qed.
Print Assumptions C10_rank_in_range.

Example C10_example : compute_rank [8; 4; 1; 1] 4 6 (RNum (95 # 100)) = 2%nat /\
  compute_rank [8; 4; 1; 1] 4 6 (RInt 0) = 1%nat /\ compute_rank [8; 4; 1; 1] 4 6 (RInt 9) = 4%nat /\
  compute_rank [8; 4; 1; 1] 4 6 (RNum 2) = 4%nat /\ 0 < energy [8; 4; 1; 1] 4.
Proof. vm_compute. auto. Qed.

(** ** C11 *)
Theorem C11_pseudo_hankel_entries {A} (X : nd A) n m d : shape X = [n; m] -> (1 <= d <= m)%nat ->
  exists H, pseudo_hankel X d = Ok H /\ shape H = [(n * d)%nat; (m - d + 1)%nat] /\
    forall k i j, (k < d)%nat -> (i < n)%nat -> (j < m - d + 1)%nat ->
      at_ H [(k * n + i)%nat; j] = at_ X [i; (j + k)%nat].
Proof. exact (pseudo_hankel_ok X n m d). Qed.
Print Assumptions C11_pseudo_hankel_entries.

Theorem C11_too_many_delays_raise {A} (X : nd A) n m d : shape X = [n; m] -> (m < d)%nat ->
  pseudo_hankel X d = Err ValueError.
Proof. exact (pseudo_hankel_err X n m d). Qed.
Print Assumptions C11_too_many_delays_raise.

Example C11_example :
  let X := mkNd [2; 3]%nat (fun idx => (ravel [2; 3]%nat idx + 1)%nat) in
  exists H, pseudo_hankel X 2 = Ok H /\ shape H = [4; 2]%nat /\
   map (fun i => map (fun j => at_ H [i; j]) (seq 0 2)) (seq 0 4) = [[1; 2]; [4; 5]; [2; 3]; [5; 6]]%nat.
Proof. eexists. repeat split. Qed.

(** ** C52 *)
(** exact, everywhere, on data that are a polynomial of degree at most two in time *)
Theorem C52_exact_on_quadratics dt a b c row : ~ dt == 0 -> (3 <= length row)%nat ->
  (forall j, (j < length row)%nat -> nth j row 0 == a + b * (rat j * dt) + c * (rat j * dt) * (rat j * dt)) ->
  exists out, differentiate dt [row] = Ok [out] /\ length out = length row /\
    forall j, (j < length row)%nat -> nth j out 0 == b + 2 * c * (rat j * dt).
Proof. exact (differentiate_quadratic dt a b c row). Qed.
Print Assumptions C52_exact_on_quadratics.

Theorem C52_linear dt u v x y : ~ dt == 0 -> length x = length y -> (3 <= length x)%nat ->
  exists dx dy dz, differentiate dt [x] = Ok [dx] /\ differentiate dt [y] = Ok [dy] /\
    differentiate dt [lincomb u v x y] = Ok [dz] /\
    forall j, (j < length x)%nat -> nth j dz 0 == u * nth j dx 0 + v * nth j dy 0.
Proof. exact (differentiate_linear dt u v x y). Qed.
Print Assumptions C52_linear.

(** row by row, shape kept *)
Theorem C52_row_wise dt X : (forall row, In row X -> (3 <= length row)%nat) ->
  exists D, differentiate dt X = Ok D /\ length D = length X /\
    forall i, (i < length X)%nat -> length (nth i D []) = length (nth i X []) /\
      differentiate dt [nth i X []] = Ok [nth i D []].
Proof. exact (differentiate_rows dt X). Qed.
Print Assumptions C52_row_wise.

Theorem C52_too_few_samples_raise dt X row : In row X -> (length row < 3)%nat ->
  differentiate dt X = Err IndexError.
Proof. exact (differentiate_short dt X row). Qed.
Print Assumptions C52_too_few_samples_raise.

(** "exact on cubics" is false *)
Theorem C52_exact_on_cubics_refuted :
  exists row out, (forall j, (j < length row)%nat -> nth j row 0 == rat j * rat j * rat j) /\
    differentiate 1 [row] = Ok [out] /\
    exists j, (j < length row)%nat /\ ~ nth j out 0 == 3 * (rat j * rat j).
Proof. exact differentiate_cubic. Qed.
Print Assumptions C52_exact_on_cubics_refuted.

Example C52_example : forall j, (j < 4)%nat -> nth j [1; 3; 7; 13] 0 == 1 + 1 * (rat j * 1) + 1 * (rat j * 1) * (rat j * 1).
Proof. intros [|[|[|[|j]]]] H; try reflexivity. lia. Qed.
