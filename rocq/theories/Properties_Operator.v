(** * C07, C08, C12-C17: the numerical core of DMD *)
From mathcomp Require Import all_ssreflect all_algebra all_field fingroup perm.
From Verif Require Import Py LinAlg Model_Operator Spec_Operator Proofs_OpCore Proofs_Operator Proofs_Operator2
  Proofs_Recovery Proofs_Dynamics Examples_Operator Refuted_Operator.
Set Implicit Arguments. Unset Strict Implicit. Unset Printing Implicit Defensive.
Import Order.TTheory GRing.Theory Num.Theory.
Local Open Scope ring_scope.
Local Notation AC := algCnumClosedField.

(** ** C07 Dynamics follow the eigenvalue powers anchored at the chosen snapshot *)
Theorem C07_dynamics_entry (C : numClosedFieldType) (np : numpy C) r (L : 'rV[C]_r) b opt T (t0 dt : rat) N
    (ts : 'I_N -> rat) (k0 : int) :
  power_ok np -> dt != 0 -> (forall j : 'I_N, ts j = t0 + (k0 + j%:Z)%:~R * dt) ->
  forall i (j : 'I_N), (L 0 i != 0 \/ anchor opt T <= k0 + j%:Z) ->
  dynamics np L b opt T t0 dt ts i j = L 0 i ^ (k0 + j%:Z - anchor opt T) * b i 0.
Proof. exact: dynamics_entry. Qed.
Print Assumptions C07_dynamics_entry.

Theorem C07_anchor_column (C : numClosedFieldType) (np : numpy C) r (L : 'rV[C]_r) b opt T (t0 dt : rat) N
    (ts : 'I_N -> rat) j :
  power_ok np -> dt != 0 -> ts j = t0 + (anchor opt T)%:~R * dt ->
  col j (dynamics np L b opt T t0 dt ts) = b.
Proof. exact: dynamics_anchor. Qed.
Print Assumptions C07_anchor_column.

Theorem C07_step (C : numClosedFieldType) (np : numpy C) r (L : 'rV[C]_r) b opt T (t0 dt : rat) N
    (ts : 'I_N -> rat) (k0 : int) :
  power_ok np -> dt != 0 -> (forall j : 'I_N, ts j = t0 + (k0 + j%:Z)%:~R * dt) ->
  forall i (j j' : 'I_N), j' = j.+1 :> nat -> (L 0 i != 0 \/ anchor opt T <= k0 + j%:Z) ->
  dynamics np L b opt T t0 dt ts i j' = L 0 i * dynamics np L b opt T t0 dt ts i j.
Proof. exact: dynamics_step. Qed.
Print Assumptions C07_step.

(** opt=-n and opt=T-n: same snapshot for the amplitudes, same dynamics *)
Theorem C07_negative_opt (C : numClosedFieldType) (np : numpy C) r (L : 'rV[C]_r) b T n (t0 dt : rat) N
    (ts : 'I_N -> rat) : (0 < n <= T)%N ->
  dynamics np L b (OptInt (- n%:Z)) T t0 dt ts = dynamics np L b (OptInt (T - n)%N%:Z) T t0 dt ts /\
  (forall S : 'M[C]_(r, T), col_index T (- n%:Z) = col_index T (T - n)%N%:Z).
Proof. exact: dynamics_negative. Qed.
Print Assumptions C07_negative_opt.

(** the anchor is the column the amplitudes are computed from *)
Theorem C07_anchor_is_the_snapshot N z (k : 'I_N) : col_index N z = Some k -> anchor (OptInt z) N = k%:Z.
Proof. exact: col_index_anchor. Qed.
Print Assumptions C07_anchor_is_the_snapshot.

Example C07_case : power_ok ex_np /\
  dynamics ex_np ex_L (const_mx 1) (OptInt (-1)) 3 0 1 (fun j : 'I_3 => j%:R) (lift ord0 ord0) ord0 = 1.
Proof.
split; first exact: ex_power_spec.
rewrite (C07_dynamics_entry (k0 := 0) _ ex_power_spec) //; last by left; rewrite mxE expf_neq0 // oppr_eq0 oner_eq0.
- rewrite !mxE mulr1 (_ : 0 + _ - _ = - 2%:Z) // -exprnN /= sqrrN expr1n invr1 //.
- by move=> j; rewrite !add0r mulr1.
Qed.

(** ** C08 Reconstruction is additive over modes *)
Theorem C08_outer_products (C : numClosedFieldType) (np : numpy C) n r (mk : pred 'I_r) (Phi : 'M[C]_(n, r)) L b opt T
    t0 dt N (ts : 'I_N -> rat) :
  masked_reconstruction np mk Phi L b opt T t0 dt ts =
  \sum_(k | mk k) col k Phi *m row k (dynamics np L b opt T t0 dt ts).
Proof. exact: masked_sum. Qed.
Print Assumptions C08_outer_products.

Theorem C08_partition (C : numClosedFieldType) (np : numpy C) n r (I : finType) (F : I -> pred 'I_r)
    (Phi : 'M[C]_(n, r)) L b opt T t0 dt N (ts : 'I_N -> rat) :
  (forall k, #|[pred i | F i k]| = 1%N) ->
  \sum_i masked_reconstruction np (F i) Phi L b opt T t0 dt ts = reconstruction Phi (dynamics np L b opt T t0 dt ts).
Proof. exact: masked_partition. Qed.
Print Assumptions C08_partition.

Theorem C08_empty (C : numClosedFieldType) (np : numpy C) n r (mk : pred 'I_r) (Phi : 'M[C]_(n, r)) L b opt T t0 dt N
    (ts : 'I_N -> rat) : (forall k, ~~ mk k) -> masked_reconstruction np mk Phi L b opt T t0 dt ts = 0.
Proof. exact: masked_empty. Qed.
Print Assumptions C08_empty.

(** even modes and odd modes *)
Example C08_case : forall k : 'I_5, #|[pred i : bool | (fun (i : bool) (k : 'I_5) => odd k == i) i k]| = 1%N.
Proof. by move=> k; rewrite (eq_card (B := pred1 (odd k))) ?card1 // => i; rewrite !inE eq_sym. Qed.

(** ** C12 Total least squares projection *)
Theorem C12_rank_zero (C : numClosedFieldType) (np : numpy C) n m (X Y : 'M[C]_(n, m)) : compute_tlsq np X Y 0 = (X, Y).
Proof. by []. Qed.
Print Assumptions C12_rank_zero.

Theorem C12_projector (C : numClosedFieldType) (np : numpy C) n m (X Y : 'M[C]_(n, m)) t :
  t != 0 -> svd_ok np (col_mx X Y) ->
  exists P : 'M[C]_m,
    [/\ compute_tlsq np X Y t = (X *m P, Y *m P), P *m P = P, adj P = P &
        (minn (n + n) m)%:Z <= t -> X *m P = X /\ Y *m P = Y].
Proof. exact: tlsq_spec. Qed.
Print Assumptions C12_projector.

(** the stacked outputs are the truncated SVD of the stacked inputs *)
Theorem C12_truncated_svd (C : numClosedFieldType) (np : numpy C) n m (X Y : 'M[C]_(n, m)) (t : nat) :
  t != 0%N -> svd_ok np (col_mx X Y) ->
  let XY := compute_tlsq np X Y t in
  let: (U, s, Vh) := np_svd np (col_mx X Y) in
  col_mx XY.1 XY.2 = U *m diag_mx (\row_j (if (j < t)%N then s 0 j else 0)) *m Vh.
Proof. exact: tlsq_truncates. Qed.
Print Assumptions C12_truncated_svd.

Theorem C12_keeps_linear_relation (C : numClosedFieldType) (np : numpy C) n m (X Y : 'M[C]_(n, m)) (A : 'M[C]_n) t :
  Y = A *m X -> let XY := compute_tlsq np X Y t in XY.2 = A *m XY.1.
Proof. by move=> ->; rewrite /compute_tlsq; case: ifP=> _ //=; rewrite mulmxA. Qed.
Print Assumptions C12_keeps_linear_relation.

Example C12_case : svd_ok ex_np (col_mx 1%:M 0 : 'M[AC]_(1 + 1, 1)).
Proof.
have H : col_mx 1%:M 0 = \matrix_(i < 1 + 1, j < 1) (i == j :> nat)%:R :> 'M[AC]_(1 + 1, 1).
  apply/matrixP=> i j; rewrite (ord1 j); case: (split_ordP i)=> k ->; by rewrite ?col_mxEu ?col_mxEd (ord1 k) !mxE.
split=> /=.
- rewrite H; apply/matrixP=> i j; rewrite diag_const_mx mulmx1 !mxE big_ord1 !mxE (ord1 j) /= mulr1 //.
- by apply/matrixP=> i j; rewrite (ord1 i) (ord1 j) !mxE big_ord_recl big_ord1 !adjE !mxE /= conjC1 conjC0 mul0r addr0 mulr1.
- by apply/matrixP=> i j; rewrite (ord1 i) (ord1 j) !mxE big_ord1 !adjE !mxE /= conjC1 mulr1.
- by move=> j; rewrite mxE ler01.
- by move=> i j _; rewrite !mxE.
Qed.

(** ** C13 Modes and eigenvalues are eigenpairs of the fitted operator *)
Theorem C13_exact_modes (C : numClosedFieldType) (np : numpy C) n m cfg cfg' (X Y : 'M[C]_(n, m)) o :
  compute_operator np cfg X Y = (cfg', Ok o) -> c_exact cfg -> c_fb cfg = false ->
  rescale_ok (c_rescale cfg') ->
  (forall Ah, ahat (c_rescale cfg') (of_Atilde o) = Ok Ah -> eig_ok np Ah) ->
  let A := dmd_map Y (of_U o) (reg_s (c_tik cfg) (np_norm np X) (of_s o)) (of_V o) in
  A *m of_modes o = of_modes o *m diag_mx (of_eigs o) /\
  forall j, of_eigs o 0 j != 0 -> col j (of_modes o) != 0.
Proof. exact: exact_modes. Qed.
Print Assumptions C13_exact_modes.

Theorem C13_projected_modes (C : numClosedFieldType) (np : numpy C) n m cfg cfg' (X Y : 'M[C]_(n, m)) o :
  compute_operator np cfg X Y = (cfg', Ok o) -> c_exact cfg = false -> c_fb cfg = false ->
  rescale_ok (c_rescale cfg') ->
  (forall Ah, ahat (c_rescale cfg') (of_Atilde o) = Ok Ah -> eig_ok np Ah) -> svd_ok np X ->
  let A := dmd_map Y (of_U o) (reg_s (c_tik cfg) (np_norm np X) (of_s o)) (of_V o) in
  (of_U o *m adj (of_U o) *m A) *m of_modes o = of_modes o *m diag_mx (of_eigs o) /\
  forall j, col j (of_modes o) != 0.
Proof. exact: projected_modes. Qed.
Print Assumptions C13_projected_modes.

Theorem C13_reduced_operator (C : numClosedFieldType) (np : numpy C) n m cfg cfg' (X Y : 'M[C]_(n, m)) o :
  compute_operator np cfg X Y = (cfg', Ok o) -> c_fb cfg = false -> svd_ok np X ->
  of_Atilde o = adj (of_U o) *m dmd_map Y (of_U o) (reg_s (c_tik cfg) (np_norm np X) (of_s o)) (of_V o) *m of_U o.
Proof. exact: reduced_operator. Qed.
Print Assumptions C13_reduced_operator.

(** the fitted operator is the best linear map from X to Y *)
Theorem C13_least_squares (C : numClosedFieldType) (np : numpy C) n m cfg cfg' (X Y : 'M[C]_(n, m)) o :
  compute_operator np cfg X Y = (cfg', Ok o) -> svd_ok np X -> untruncated X (of_U o) (of_s o) (of_V o) ->
  forall B, frob2 (Y - dmd_map Y (of_U o) (of_s o) (of_V o) *m X) <= frob2 (Y - B *m X).
Proof. exact: least_squares. Qed.
Print Assumptions C13_least_squares.

(** with Tikhonov regularisation it solves ridge regression *)
Theorem C13_tikhonov (C : numClosedFieldType) (np : numpy C) n m cfg cfg' (X Y : 'M[C]_(n, m)) o l :
  compute_operator np cfg X Y = (cfg', Ok o) -> c_tik cfg = Some l -> 0 <= l ->
  svd_ok np X -> untruncated X (of_U o) (of_s o) (of_V o) -> norm_ok np X ->
  dmd_map Y (of_U o) (reg_s (c_tik cfg) (np_norm np X) (of_s o)) (of_V o) *m (X *m adj X + (l * np_norm np X)%:M) = Y *m adj X.
Proof. exact: tikhonov. Qed.
Print Assumptions C13_tikhonov.

(** forward_backward=True: the eigenvalues need not be eigenvalues of the system
    although the data are exactly linear and nothing is truncated *)
Theorem C13_forward_backward_refuted : exists np cfg (X Y B : 'M[AC]_2) o,
  [/\ compute_operator np cfg X Y = (cfg, Ok o) /\ c_fb cfg, Y = B *m X,
      svd_ok np X /\ svd_ok np Y,
      (sqrtm_ok np fb_M /\ forall Ah, ahat (c_rescale cfg) (of_Atilde o) = Ok Ah -> eig_ok np Ah) &
      forall j (v : 'cV[AC]_2), B *m v = of_eigs o 0 j *: v -> v = 0].
Proof. exact: fb_wrong. Qed.
Print Assumptions C13_forward_backward_refuted.

Example C13_case exact opt : let cfg := d_op (ex_cfg exact opt) in
  [/\ compute_operator ex_np cfg (col' ord_max ex_S) (col' ord0 ex_S) = (cfg, Ok (ex_o exact)),
      svd_ok ex_np (col' ord_max ex_S), rescale_ok (c_rescale cfg),
      (forall Ah, ahat (c_rescale cfg) (of_Atilde (ex_o exact)) = Ok Ah -> eig_ok ex_np Ah) &
      untruncated (col' ord_max ex_S) (of_U (ex_o exact)) (of_s (ex_o exact)) (of_V (ex_o exact))
      /\ norm_ok ex_np (col' ord_max ex_S)].
Proof.
split=> //.
- by rewrite ex_X; exact: ex_svd.
- by rewrite ex_Atilde => Ah [<-]; exact: ex_eig_ok.
- split; last by split; rewrite /= ?sqrtC_ge0 ?frob2_ge0 ?sqrtCK.
  rewrite ex_X; split; first by rewrite ex_U ex_V ex_s diag_const_mx adj1 !mulmx1.
  by move=> j; rewrite ex_s mxE oner_neq0.
Qed.

(** ** C14 Exact recovery of linear dynamics *)
Theorem C14_predict (C : numClosedFieldType) (np : numpy C) n m cfg cfg' B (S : 'M[C]_(n, m.+1)) f :
  recoverable np cfg cfg' B S f -> pinv_ok np (of_modes (df_op f)) ->
  forall k k' : 'I_m.+1, k' = k.+1 :> nat ->
  predict np (of_modes (df_op f)) (of_eigs (df_op f)) (col k S) = col k' S.
Proof. exact: recovery_predict. Qed.
Print Assumptions C14_predict.

(** amplitudes taken at one snapshot: the reconstruction at time t0 + k dt, inside
    or after the training window, is the state of the system after k steps *)
Theorem C14_reconstruction (C : numClosedFieldType) (np : numpy C) n m cfg cfg' B (S : 'M[C]_(n, m.+1)) f :
  recoverable np cfg cfg' B S f -> d_opt cfg <> OptBool true ->
  (forall k, lstsq_ok np (of_modes (df_op f)) (col k S)) -> power_ok np ->
  forall t0 dt N (ts : 'I_N -> rat) (i : 'I_N) (k : nat), dt != 0 -> ts i = t0 + k%:R * dt ->
  ((forall j, of_eigs (df_op f) 0 j != 0) \/ anchor (d_opt cfg) m.+1 <= k%:Z) ->
  col i (reconstruction (of_modes (df_op f))
           (dynamics np (of_eigs (df_op f)) (df_b f) (d_opt cfg) m.+1 t0 dt ts)) = state B (col ord0 S) k.
Proof. exact: recovery_index. Qed.
Print Assumptions C14_reconstruction.

Theorem C14_reconstruction_optimal (C : numClosedFieldType) (np : numpy C) n m cfg cfg' B (S : 'M[C]_(n, m.+1)) f :
  recoverable np cfg cfg' B S f -> d_opt cfg = OptBool true -> c_exact (d_op cfg) ->
  (let P := opt_P (of_modes (df_op f)) (of_eigs (df_op f)) m.+1 in
   forall q, P \in unitmx -> solve_ok np P q) -> power_ok np ->
  forall t0 dt N (ts : 'I_N -> rat) (i : 'I_N) (k : nat), dt != 0 -> ts i = t0 + k%:R * dt ->
  col i (reconstruction (of_modes (df_op f))
           (dynamics np (of_eigs (df_op f)) (df_b f) (d_opt cfg) m.+1 t0 dt ts)) = state B (col ord0 S) k.
Proof. exact: recovery_optimal. Qed.
Print Assumptions C14_reconstruction_optimal.

(** inside the training window that state is the snapshot *)
Theorem C14_states_are_snapshots (C : numClosedFieldType) n m (B : 'M[C]_n) (S : 'M[C]_(n, m.+1)) (k : 'I_m.+1) :
  linear_data B S -> col k S = state B (col ord0 S) k.
Proof. exact: linear_state. Qed.
Print Assumptions C14_states_are_snapshots.

Theorem C14_needs_invariance_refuted : exists np (cfg cfg' : dmd_cfg AC) (B : 'M[AC]_2) (S : 'M[AC]_(2, 2)) f,
  [/\ linear_fit np cfg cfg' B S f, pinv_ok np (of_modes (df_op f)) &
      predict np (of_modes (df_op f)) (of_eigs (df_op f)) (col ord0 S) != col ord_max S].
Proof. exact: not_invariant. Qed.
Print Assumptions C14_needs_invariance_refuted.

(** opt=True with projected modes scales the reconstruction by (T-1)/T here *)
Theorem C14_optimal_projected_refuted :
  exists np (cfg cfg' : dmd_cfg AC) (B : 'M[AC]_2) (S : 'M[AC]_(2, 3)) f,
  [/\ recoverable np cfg cfg' B S f, d_opt cfg = OptBool true /\ c_exact (d_op cfg) = false,
      (forall r (P : 'M[AC]_r) q, P \in unitmx -> solve_ok np P q), power_ok np &
      forall ts : 'I_3 -> rat, ts ord0 = 0 ->
      col ord0 (reconstruction (of_modes (df_op f)) (dynamics np (of_eigs (df_op f)) (df_b f) (d_opt cfg) 3 0 1 ts))
      = (2%:R / 3%:R) *: col ord0 S].
Proof. exact: opt_projected_biased. Qed.
Print Assumptions C14_optimal_projected_refuted.

(** amplitudes from the last snapshot, exact or projected modes *)
Example C14_case exact : exists f,
  [/\ recoverable ex_np (ex_cfg exact (OptInt (-1))) (ex_cfg exact (OptInt (-1))) swap2 ex_S f,
      pinv_ok ex_np (of_modes (df_op f)),
      (forall k, lstsq_ok ex_np (of_modes (df_op f)) (col k ex_S)), power_ok ex_np &
      forall j, of_eigs (df_op f) 0 j != 0].
Proof.
exists (ex_f exact ord_max); split.
- apply: ex_recoverable=> //; rewrite /col_index /= insubT //=; congr Some; exact/val_inj.
- exact: ex_pinv.
- by move=> k; exact: ex_lstsq.
- exact: ex_power_spec.
- exact: ex_nz.
Qed.
Example C14_case_optimal : recoverable ex_np (ex_cfg true (OptBool true)) (ex_cfg true (OptBool true)) swap2 ex_S (ex_fopt true)
  /\ (forall r (P : 'M[AC]_r) q, P \in unitmx -> solve_ok ex_np P q).
Proof. by split; [exact: ex_recoverable_opt | move=> r P q; exact: ex_solve]. Qed.

(** ** C15 Sorting eigenvalues keeps eigenpairs together *)
Theorem C15_one_permutation (C : numClosedFieldType) (np : numpy C) cfg r (A : 'M[C]_r) e v :
  eigenquantities np cfg A = Ok (e, v) ->
  exists Ah, ahat (c_rescale cfg) A = Ok Ah /\
  exists p : 'S_r,
    [/\ forall j, e 0 j = (np_eig np Ah).1 0 (p j),
        forall j, col j v = col (p j) (np_eig np Ah).2,
        forall i j : 'I_r, (i <= j)%N ->
          match c_sorted cfg with
          | SoAbs => `|e 0 i| <= `|e 0 j|
          | SoReal => ('Re (e 0 i) < 'Re (e 0 j)) \/ ('Re (e 0 i) = 'Re (e 0 j) /\ 'Im (e 0 i) <= 'Im (e 0 j))
          | _ => True
          end &
        c_sorted cfg = SoNone -> e = (np_eig np Ah).1 /\ v = (np_eig np Ah).2].
Proof.
case/sorted_spec=> Ah [HA [p [He Hv Ho Hn]]]; exists Ah; split=> //; exists p; split=> // i j Hij.
move: (Ho i j Hij); rewrite /sort_key; case: (c_sorted cfg)=> //.
by case/orP=> [->|/andP [/eqP -> ->]]; [left | right].
Qed.
Print Assumptions C15_one_permutation.

(** ties keep the order of the eigensolver *)
Theorem C15_stable (C : numClosedFieldType) (T : eqType) so (l l' : seq (C * T)) (p : pred (C * T)) :
  sort_pairs so l = Ok l' -> (forall x y, p x -> p y -> sort_key so x.1 y.1) -> filter p l' = filter p l.
Proof. exact: sort_pairs_stable. Qed.
Print Assumptions C15_stable.

Theorem C15_bad_value (C : numClosedFieldType) (np : numpy C) cfg r (A : 'M[C]_r) :
  c_sorted cfg = SoBad -> (exists Ah, ahat (c_rescale cfg) A = Ok Ah) -> eigenquantities np cfg A = Err ValueError.
Proof. by move=> Hs [Ah HA]; rewrite /eigenquantities HA /= Hs. Qed.
Print Assumptions C15_bad_value.

(** the eigenvalues 1, -1 of the swap are put in the order -1, 1 by 'real' *)
Example C15_case : sort_pairs SoReal (eig_pairs ex_L ex_W) =
  Ok [:: (-1, col (lift ord0 ord0) ex_W); (1, col ord0 ex_W)].
Proof.
rewrite /sort_pairs /eig_pairs /ex_L enum_ordSl enum_ordSl enum_ord0 /= !mxE /= expr0 expr1.
have R1 : 'Re (1 : AC) = 1 by apply/Creal_ReP; exact: rpred1.
have K : key_real (1 : AC) (-1) = false.
  rewrite /key_real raddfN /= R1 -subr_gt0 -opprD oppr_gt0 -subr_eq0 opprK.
  by rewrite (_ : 1 + 1 = 2%:R) // pnatr_eq0 andFb orbF lt_gtF // ltr0n.
have K' : key_real (-1 : AC) 1.
  by rewrite /key_real raddfN /= R1 -subr_gt0 opprK (_ : 1 + 1 = 2%:R) // ltr0n.
by rewrite /sort /= ?K ?K'.
Qed.

(** ** C16 predict multiplies each mode by its eigenvalue *)
Theorem C16_mode_combinations (C : numClosedFieldType) (np : numpy C) n r p (Phi : 'M[C]_(n, r)) L (c : 'M[C]_(r, p)) :
  pinv_ok np Phi -> row_full Phi -> predict np Phi L (Phi *m c) = Phi *m (diag_mx L *m c).
Proof. exact: pinv_predict. Qed.
Print Assumptions C16_mode_combinations.

Theorem C16_linear (C : numClosedFieldType) (np : numpy C) n r p (Phi : 'M[C]_(n, r)) L (a : C) (x y : 'M[C]_(n, p)) :
  predict np Phi L (a *: x + y) = a *: predict np Phi L x + predict np Phi L y.
Proof. exact: predict_linear. Qed.
Print Assumptions C16_linear.

Theorem C16_kernel (C : numClosedFieldType) (np : numpy C) n r p (Phi : 'M[C]_(n, r)) L (x : 'M[C]_(n, p)) :
  np_pinv np Phi *m x = 0 -> predict np Phi L x = 0.
Proof. exact: predict_kernel. Qed.
Print Assumptions C16_kernel.

(** in particular the part of the input orthogonal to the modes is lost *)
Theorem C16_orthogonal (C : numClosedFieldType) (np : numpy C) n r p (Phi : 'M[C]_(n, r)) L (x : 'M[C]_(n, p)) :
  pinv_ok np Phi -> adj Phi *m x = 0 -> predict np Phi L x = 0.
Proof. exact: predict_orth. Qed.
Print Assumptions C16_orthogonal.

Example C16_case exact : pinv_ok ex_np (of_modes (ex_o exact)) /\ row_full (of_modes (ex_o exact)).
Proof.
split; first exact: ex_pinv.
by apply/row_fullP; exists (adj (of_modes (ex_o exact))); exact: ex_modes_orth.
Qed.

(** ** C17 A fit depends only on configuration and data *)
Theorem C17_refit (C : numClosedFieldType) (np : numpy C) cfg (h : seq (dataset C)) n m (S : 'M[C]_(n, m.+1)) :
  (if c_rescale (d_op cfg) is RsAuto then False else True) ->
  fit np (after_fits np cfg h) S = fit np cfg S.
Proof. by move=> H; apply: fit_history; rewrite /not_auto; case: (c_rescale _) H. Qed.
Print Assumptions C17_refit.

Theorem C17_auto_keeps_first_factors (C : numClosedFieldType) (np : numpy C) cfg n m (S : 'M[C]_(n, m.+1)) :
  d_tlsq cfg = 0 -> c_rescale (d_op cfg) = RsAuto C -> c_fb (d_op cfg) = false ->
  let s := sv_s (compute_svd np (col' ord_max S) (c_rank (d_op cfg))) in
  c_rescale (d_op (fit np cfg S).1) = RsArr [seq s 0 j | j <- enum 'I_(sv_r (compute_svd np (col' ord_max S) (c_rank (d_op cfg))))].
Proof. exact: auto_frozen. Qed.
Print Assumptions C17_auto_keeps_first_factors.

Theorem C17_auto_rejects_other_rank (C : numClosedFieldType) (np : numpy C) cfg f n m (S : 'M[C]_(n, m.+1)) :
  c_rescale (d_op cfg) = RsArr f -> c_fb (d_op cfg) = false ->
  size f != sv_r (compute_svd np (compute_tlsq np (col' ord_max S) (col' ord0 S) (d_tlsq cfg)).1 (c_rank (d_op cfg))) ->
  (fit np cfg S).2 = Err ValueError.
Proof. exact: auto_frozen_wrong_rank. Qed.
Print Assumptions C17_auto_rejects_other_rank.

Theorem C17_auto_refuted : exists np (cfg : dmd_cfg AC) (d : dataset AC) (S : 'M[AC]_(2, 3)),
  [/\ c_rescale (d_op cfg) = RsAuto AC, (exists f, (fit np cfg S).2 = Ok f) &
      (fit np (after_fits np cfg [:: d]) S).2 = Err ValueError].
Proof. exact: auto_not_fresh. Qed.
Print Assumptions C17_auto_refuted.

Example C17_case : exists f,
  fit ex_np (after_fits ex_np (ex_cfg true (OptInt 1)) [:: @OneSet AC 1 1 (const_mx 1); @OneSet AC 2 2 ex_S]) ex_S
  = (ex_cfg true (OptInt 1), Ok f).
Proof.
rewrite C17_refit //; exists (ex_f true (lift ord0 ord0)); apply: ex_fit=> //.
by rewrite /col_index /= insubT //=; congr Some; exact/val_inj.
Qed.
