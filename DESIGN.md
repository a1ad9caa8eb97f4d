# PyDMD formal model: design

## 1. Approach

The model is a shallow embedding, in Gallina, of the Python functions in `/repo/pydmd`.
Each definition cites the lines it models.  Exceptions are values (`Py.result`).
Mutable objects are explicit states and a history is a fold of `step` over a list of operations.
Calls into NumPy/SciPy/sklearn linear algebra (`svd`, `eig`, `lstsq`, `pinv`, `qr`, `sqrtm`, kernels,
optimisers, random generators, clusterers) are *oracles*: universally quantified functions or values,
constrained only by hypotheses that state their documented contract.  They are never axioms.

### Number systems

* comparison based algorithms (ranks, masks, thresholds, time steps, windows): `Z`, `nat`, `Q`;
* linear algebra: mathcomp matrices over an arbitrary field, `numClosedFieldType` when conjugation is needed;
* `Reals` only where square roots, exponentials or logarithms are essential (standard-library axioms of the reals, listed per theorem).

Floating point rounding is not modelled: every theorem is about exact arithmetic.

### File layout (`rocq/theories`)

`Py.v` holds the Python/NumPy base vocabulary (exceptions, index normalisation, slices, arange, array_split).
Each group has `Model_X.v` (code), `Spec_X.v` when a separate specification is useful, `Proofs_X.v` (lemmas)
and `Properties_X.v` (the theorems named in `MANIFEST.json`, each followed by `Print Assumptions` and a satisfiability example).

When the natural or documented statement is false of the code, the theorem carries the exact condition under which
it holds and a companion `..._refuted` theorem exhibits a concrete counterexample.  These are listed in section 4.

## 2. Plan per property

| id | modelled | proof |
|----|----------|-------|
| C01 | heap of arrays, `ActivationBitmaskProxy`, getters, in-place edits | refinement to "full record + mask", induction on histories |
| C02 | mask getter/setter with all error branches | case analysis on setter, frame statement |
| C03 | `__getitem__`: key classification, Python slice semantics | slice lemmas, mask = membership of normalised indexes |
| C04 | heap with shared/fresh references | invariant over interleavings of operations on two instances |
| C05 | `DMDTimeDict`, getters/setters, heap of dicts | invariant over histories |
| C06 | `np.arange` length over Q | arithmetic on ceil |
| C07 | `dynamics`, exponent translation over a field with integer powers | algebra |
| C08 | `reconstructed_data` as matrix product over restricted arrays | sums over masked indexes |
| C09 | n-d arrays as shape + row-major data | index arithmetic |
| C10 | `_compute_rank`, `_svht`, over Q | induction on cumulative sums |
| C11 | `pseudo_hankel_matrix` | index arithmetic |
| C12 | `compute_tlsq` over closed fields, SVD oracle | matrix algebra |
| C13 | `DMDOperator` | matrix algebra with SVD and eig contracts |
| C14 | `DMD.fit` end to end, with one or two arguments (Properties_FitXY.v) | matrix algebra + induction on time |
| C15 | sorting branch of `_compute_eigenquantities` | stable insertion sort: permutation + sortedness |
| C16 | `predict` | matrix algebra |
| C17 | `fit` as a state transformer with oracles | state independence; refutations by witness |
| C18 | `fit` with crash points | induction over histories with failures |
| C19 | `BinaryTree` | index arithmetic, array writes |
| C20 | `array_split`, `MrDMD.fit` | arithmetic |
| C21 | max_level clamp | arithmetic on log2 |
| C22 | `partial_time_interval`, `time_window_bins` | arithmetic over Q |
| C23 | residual loop; modes, dynamics and eigs of the whole object | induction on levels |
| C24 | HankelDMD windows; check of the weights | arithmetic; cases |
| C25 | preprocessing/hankel.py | index arithmetic |
| C26 | wrapper stack | induction on nesting |
| C27..C30 | dmd_modes_tuner.py | lists + heap |
| C31 | DMDc | induction on time, matrix algebra |
| C32 | CDMD/RDMD/RQB | matrix algebra |
| C33 | pidmd_utils.py | matrix algebra per manifold |
| C34, C35 | paramdmd.py | index arithmetic, histories |
| C36 | spdmd.py | loop bound, algebra |
| C37, C38 | havok.py | index arithmetic, run-length induction |
| C39 | edmd.py | operator over a closed field; Koopman eigenfunctions and modes from the Gramian's eigendecomposition |
| C40-C42 | bopdmd.py: constraints, variable projection, bagging; np.linalg, the random generator, set.pop and np.exp are oracles | loop invariants over every schedule of the oracles; derivative of the projected residual by epsilon and delta (`Properties_BOPGrad.v`); the step lengths tried and the change of the damping (`Properties_BOPDamp.v`) |
| C43 | costs.py: _build_windows, get_window_indices | integer arithmetic; `tiling` in Spec_CostsWin.v |
| C44, C45, C56 | costs.py: fit, cluster_omega, scale_reconstruction; BOPDMD is Model_BOP; the rounding of the window count, kernel powers, clusterer and argsort are oracles | weighted averages, permutations, loop invariants |
| C46 | costs.py: to_xarray, from_xarray, _xarray_sanitize, _xarray_unsanitize; mrcosts.py: to_netcdf, from_netcdf (Model_CostsIO.v: Python values, attribute names as strings, a directory as a map from window length to dataset) | strings, induction over the attributes and over the levels; concrete case: the two levels of C58 saved and read back (Properties_CostsFilesCase.v) |
| C48 | lando.py: kernels, compute_operator, _update_cholesky, _update_online, fit, update, f, sparse_dictionary, predict; lstsq, pinv, exp and the shuffle are oracles | invariant of the Cholesky factor and of recursive least squares by induction on the stream; `Spec_Lando.v` |
| C47 | lando.py: analyze_fixed_point, bias, linear, nonlinear, kernel_gradient | algebra; derivatives by epsilon and delta |
| C57 | lando.py: analyze_fixed_point, fit and update on an object that already has an analysis; the cached modes of dmdbase.py | case analysis of the state left behind |
| C49 | varprodmd.py: residual, Jacobian, starting point, sample selection, compute_operator, fit, forecast, ssr; least_squares, pivoted QR, argsort and exp are oracles | derivatives by epsilon and delta (`Proofs_VarProJac.v`), least squares, every schedule of the optimiser; `Spec_VarPro.v` |
| C58 | mrcosts.py: constructor, fit, multi_res_interp, interp_fill, multi_res_deterp, global clustering and sweep, global_scale_reconstruction, get_background, global_reconstruction; on top of the COSTS model | induction over the levels, nearest neighbours on increasing axes (concrete two-level case in `Properties_MrCostsCase.v`; `Proofs_MrInterp.v`), telescoping sums; `Spec_MrCosts.v` |
| C59, C60 | plotter.py: plot_eigs, plot_eigs_mrdmd, _enforce_ratio, _plot_limits, plot_modes_2D, plot_snapshots_2D; a plot is the points, limits and coloured cells handed to matplotlib (Model_Plot.v) | rational arithmetic, index arithmetic; `Spec_Plot.v` |
| C61 | plotter.py: plot_summary; the result is the markers, rows, curves, colours and limits of the nine panels (Model_Summary.v); argsort, exp, log, allclose and the singular values come from outside | the pairing loop keeps disjoint pairs of conjugates (induction); argsort by its contract; `Spec_Summary.v` |
| C62 | bopdmd.py: plot_mode_uq, plot_eig_uq; the result is the titles, places and values of the subplots, and the circles (Model_UQ.v); argsort comes from outside | the places by division with remainder; conjugates by counting larger amplitudes; `Spec_UQ.v` |
| C63 | bopdmd.py: the options of the variable projection: the call with `**varpro_opts_dict`, `_varpro_opts_warn`, the flag verbose in the bagging loop, `print_varpro_opts` (Model_BOPOpts.v). Decimal constants are exact rationals; keys are strings; floats have infinities and nan | acceptance, values and warnings against a table by name (Spec_BOPOpts.v); the displayed trials by induction on their number |
| C64 | lando.py: `_test_kernel_inputs`, `_test_kernel_functions`, the constants of `kernel_gradient`; edmd.py: the checks of the constructor (Model_KernelArgs.v). scikit-learn on the dummy data is an oracle; a custom function decides by the shapes of its arguments | exact characterisation of acceptance, errors and warnings by cases |
| C65 | havok.py: `plot_summary`, what is drawn (Model_HavokPlot.v). The threshold is a decision, the jump distance is given; the picture of the operator, titles and files are left out | every curve as the values of a range of indexes; the events by C38; errors by cases |
| C66 | costs.py: `plot_time_series`, `plot_scale_separation`, `plot_reconstructions`, `plot_omega_time_series`, `plot_omega_histogram`, the values of `plot_error`, `periods` (Model_CostsPlot.v). Real rational numbers; the reconstruction of the bands is given; titles, contours and figure arguments are left out | algebra over sums; the dictionaries of limits by cases |
| C67 | mrcosts.py: `_plot_helper_data_check`, `plot_local_scale_separation`, `plot_local_reconstructions`, `plot_local_time_series`, `plot_local_error`; the data fit gives to each level (Model_MrCostsPlot.v). A fitted level is the reconstruction of its bands, with or without means | case analysis over Model_CostsPlot.v |
| C68 | dmdbase.py: `frequency`, `growth_rate`; varprodmd.py: `frequency`, `growth_rate` (Model_Freq.v), over the reals, np.log by its contract (principal logarithm) and the array of eigenvalues real or complex | polar form of powers, uniqueness of the angle in (-pi, pi] |
| C54, C55 | bopdmd.py: fit, fit_econ, forecast | case analysis, least squares, algebra |
| C50 | optdmd.py | Eckart-Young (Proofs_EckartYoung.v), algebra, case analysis |
| C51 | subspacedmd.py | index and algebra |
| C52 | utils.differentiate | algebra |
| C53 | optimal amplitudes of DMD and CDMD | normal equations, orthogonality |

## 3. Trusted base

* Coq 8.16.1 kernel and the standard library; mathcomp 1.x and Coquelicot as libraries (no axioms of theirs are used beyond the standard library's).
* Axioms reported by `Print Assumptions` for each theorem: see section 5 (kept current).
* The correspondence between the Gallina definitions and the Python text was made by reading; every definition cites its source lines and its simplifications.

### Not modelled

what matplotlib does with the points, limits and cells it is given (C59, C60, C61, C62, C65, C66, C67; it refuses curves whose two coordinates have different lengths), the looks of plots, tutorials, logging, warnings, docstrings, floating point rounding/NaN/inf (except where stated), pickling, performance, the netcdf format (C46: a dataset read from a file is the one written; the parts of xarray that mrCOSTS needs to align its levels are modelled in C58).

## 4. Findings (documented or natural expectation is false of the code)

Each line names the theorem that exhibits the behaviour.

### Base class, snapshots, time, utilities
* `dmd[True]` is accepted and is not treated as the position 1 (C03_bool_key_is_a_position_refuted).
* A sub-selection shares its operator: refitting the copy changes what the original returns (C04_refit_of_copy_is_private_refuted).
* `DMDTimeDict` checks keys in `__setitem__` only: `update`, `del` and assigning a plain dictionary escape (C05_keys_are_kept_by_any_operation_refuted).
* `dmd_timesteps` can contain a step past `tend` (C06_steps_stay_in_window_refuted).
* `differentiate` is not exact on cubics (C52_exact_on_cubics_refuted).
* A fit that raises half-way keeps part of the new state (C18_failed_fit_is_all_or_nothing_refuted).
* `rescale_mode='auto'` makes the result depend on the previous fit (C17_auto_refuted).

### Exact operator
* `forward_backward` does not give the operator of the data (C13_forward_backward_refuted).
* Exact reproduction of the data needs an invariant span (C14_needs_invariance_refuted); optimal amplitudes with projected modes do not reproduce it (C14_optimal_projected_refuted).

### MrDMD
* Negative leaf indexes read another node (C19_negative_leaf_refuted); writes are unchecked (C19_unchecked_write_refuted).
* The time of a leaf is not the time of its columns when widths differ (C20_time_refuted); blocks of `array_split` do not nest between levels (C20_nesting_refuted).
* Three snapshots always fail (C21_three_snapshots); a list of DMDs with a clamped max_level raises (C21_sequence_clamp_refuted); a clamped max_level stays clamped on the next fit (C17_mrdmd_sticky_level_refuted).
* An empty time window selects two bins (C22_empty_window_refuted); integer data is cast (C23_cast_refuted).

### Plots
* `plot_eigs_mrdmd(level=0)` plots all the levels (C59_level_zero_refuted).
* `plot_modes_2D` and `plot_snapshots_2D` with the default order scramble snapshots that are not square: the grid has shape (b, a) for an a x b snapshot (C60_rectangular_refuted).
* `plot_summary` labels the singular values with "% variance" (and a comment says so) but draws shares of the singular values, not of their squares (C61_variance_refuted).
* `plot_summary` after `fit_econ` with the default `snapshots_shape` calls `len(None)`: TypeError (C61_econ_refuted).
* `plot_summary` draws the dynamics, which follow `dmd_time`, against `original_timesteps`: after a forecast with another number of steps matplotlib refuses (C61_forecast_refuted).
* `plot_mode_uq(plot_conjugate_pairs=False)` does not look at the eigenvalues: it takes every second mode by amplitude, the first one alone if their number is odd. With a real eigenvalue of small amplitude a title names one eigenvalue of a pair together with the real one, and the pair's other mode stands alone (C62_pairs_refuted).
* BOPDMD with `verbose=True` and five or more bagging trials stores False for `verbose` in the operator, so `print_varpro_opts` does not print the chosen value (C63_printed_refuted). Names and types in `varpro_opts_dict` are only checked by `fit`, not by the constructor (C63_accepted).
* LANDO checks `kernel_metric` even if a custom kernel replaces it (C64_custom_metric_refuted), and refuses custom kernels that only work for the number of features of the data, because it tries them on five features (C64_features_refuted). `kernel_params={'gamma': None}`, the default of scikit-learn, can be fitted, but `analyze_fixed_point` raises TypeError (C64_gamma_none_refuted).
* `HAVOK.plot_summary` never draws the last index of a forcing event red, and does not draw an event of one index, because the last index of a slice is used as its end (C65_red). It raises IndexError if the forcing never exceeds the threshold in the range drawn (C65_quiet_refuted), or if `num_plot` exceeds the number of embeddings or is negative (C65_range_refuted). `true_switch_indices` may be any iterable by its documentation, but a list raises TypeError (C65_list_refuted), and of an array that is not sorted it drops what follows the first index outside (C65_stars).
* `COSTS.plot_time_series(include_residual=True)` subtracts the time mean from the data but not from the reconstruction, so the curve called residual is the error minus that mean; for an exact reconstruction it is minus the mean instead of 0 (C66_residual_refuted). `plot_reconstructions` raises ValueError for a fit with one band (C66_one_band_refuted). The plots write their default limits into the dictionary of the caller, so a dictionary used for two plots keeps the limits of the first data (C66_reuse_refuted).
* The plots of one level of mrCOSTS take the lowest band of the level before with the window means, even if `costs_recon_kwargs` turned them off in the fit, so they do not show the data the level was fitted on (C67_means_refuted). A negative level without data raises UnboundLocalError (C67_levels).
* `growth_rate` of the discrete models is Re(eigenvalue)/dt, which for a positive eigenvalue never is the growth rate: a decaying mode has a positive one (C68_growth_refuted). If data and eigenvalues are all real, np.linalg.eig returns a real array, whose logarithm has imaginary part 0, so a mode that changes sign at each step has frequency 0 instead of 1/(2 dt) (C68_real_refuted). Neither attribute works for BOPDMD and OptDMD, whose fit stores no time dictionary (C68_no_time_refuted).

### Hankel, wrappers
* `original_time['t0'] != 0` or `dt != 1` selects other columns (C24_origin_refuted, C24_time_step_refuted, C24_columns_refuted); 'mean' depends on the requested window (C24_mean_window_refuted); a tuple of weights of the wrong length or an unknown method name passes the constructor and fails at reconstruction (C24_weights_unchecked_refuted); lists are refused (C24_fit_iterable_refuted).
* Weights of total zero give zeros (C25_zero_weight_refuted).
* `fit` of a wrapper returns the inner DMD (C26_fit_return_refuted); a failed inner fit leaves new preprocessing state with the old DMD (C26_failed_fit_refuted); assigned attributes shadow the inner ones (C26_assignment_refuted); svd_projection uses the transpose, not the adjoint (C26_svd_projection_refuted).

### Modes tuner
* Consecutive selections are composed wrongly (C27_composition_refuted, C27_composition_removes_refuted); `nullify_amplitudes` of the tuner is ignored (C27_nullify_refuted); the threshold criterion is strict although documented inclusive (C28_threshold_inclusive_refuted); `max_distance_from_unity=0` counts as absent (C28_zero_distance_refuted); `integral_contribution(0)` keeps everything (C28_integral_zero_refuted); stabilisation treats the boundary strictly (C29_boundary_refuted); `select` on several instances is not atomic (C30_not_atomic_refuted).

### DMDc, CDMD, RDMD
* `dt // dt` truncates: a fractional time step freezes the input index (C31_fractional_dt_refuted); `dt = 2` squares A but applies B once (C31_double_dt_refuted); tlsq_rank is ignored with unknown B (C31_tlsq_ignored); a wrong number of inputs raises RuntimeError (C31_refusals).
* CDMD: `rescale_mode='auto'` always raises (C32_auto_refuted).
* RDMD keeps its first test matrix: refitting with another number of snapshots raises, seeds are ignored afterwards (C32_rdmd_keeps_test_matrix, C32_rdmd_refit_refuted).

### PiDMD
* Triangular manifolds are not triangular when the rows of X are dependent (C33_uppertriangular_refuted).
* "symmetric" drops imaginary parts of complex data (C33_symmetric_complex_refuted); the circulant formula is not the best fit for complex X (C33_circulant_complex_refuted).
* The unitary circulant variants are never unitary when eigenvalues are dropped (C33_circulant_unitary_refuted, C33_bccb_unitary_refuted).
* An array manifold_opt holds the widths of each row, not index bounds (C33_banded, C33_band_option).

### ParametricDMD, optimal amplitudes
* A fit refused because of the number of DMD instances has already changed the number of training parameters, so that later forecasts are cut differently without an error (C35_failed_fit_refuted).
* A 0-d parameter array is stored without a second dimension, a tuple raises AttributeError (model, `normalise`).
* opt=True with projected modes does not minimise the error (C53_projected_refuted).

### SpDMD
* `soft_thresholding_operator` computes (1-k)/|v|*v instead of (1-k/|v|)*v: equal on the unit circle only (C36_soft_threshold_refuted).
* The discarded modes are read from the beta before the last update; a run that stops at the first test, or max_iterations=0, discards all of them (C36_iterations, C36_no_iterations_refuted).
* A zero entry becomes NaN in the soft threshold; data with no component along the modes therefore keeps all of them (C36_no_component_refuted).
* With an integer `opt` the amplitudes refer to the first snapshot but the dynamics to the given one (C36_opt_index_refuted).

### HAVOK
* `dehankel(hankel(X))` reads memory np.empty did not initialise when `lag` exceeds the number of embedding columns (C37_round_trip_refuted); imaginary parts are dropped (C37_complex_refuted); spare rows are ignored (C37_spare_rows_refuted); structured HAVOK reconstructs one sample fewer (C37_structured_length_refuted).
* An integer `p` of `compute_threshold` calls an array: TypeError always (C38_integer_p_refuted). `p` does not bound the probability of an event when the forcing is not symmetric about zero (C38_probability_refuted).
* With r = num_chaos+1, which fit accepts, lsim squeezes the single coordinate and every prediction fails (C38_single_coordinate_refuted).
* A failing refit leaves the new `r` beside the arrays of the old fit (C38_failed_fit_refuted).
* Not modelled: BOPDMD as inner model, the looks of the plot (C65), the histogram itself (its bins and fractions are inputs), lsim (an arbitrary function).

### SubspaceDMD
* `rescale_mode='auto'` is documented but always raises ValueError (`C51_auto_refuted`): the override of `compute_operator` never replaces the string by the singular values.
* A float svd_rank between 0 and the dimension of the data raises TypeError (`C51_svd_rank`); svd_rank=0, documented as unsupported, acts like -1.
* A zero eigenvalue gives an infinite mode (division by the eigenvalue); the theorems speak of modes of non-zero eigenvalues only, `C51_reconstruction` assumes there is no zero eigenvalue.
* Snapshots 0 and 1 need not be in the span of the modes: the modes span snapshots 2..T-2 (`C51_linear`), so reconstruction needs an invertible system or the first snapshot in that span.

### OptDMD
* With `factorization='evd'`, the default, `predict` always raises AttributeError: nothing sets `self._eigs`, and `_input_space` holds the eigenvalues (`C50_predict_errors`). Any other string is accepted by the constructor and by `fit`; `predict` then raises UnboundLocalError.
* `pinv_diag` keeps entries `x > rcond` in NumPy's complex order and stores them in a real array: an eigenvalue whose real part is not above the threshold gives a zero mode (`C50_evd`, `C50_negative_refuted`); for the others the mode is only rescaled, so it remains an eigenvector.
* The threshold is absolute (1e4 eps), so singular values of X below it are dropped whatever the scale of the data; the optimality theorems assume none lies between zero and it. `C50_end_to_end` shows that a small enough threshold always exists.
* `fitted`, `dynamics` and the activation mask always raise NotImplementedError (`C50_refused`).

### EDMD
* After `fit(X)` with one argument, `eigenfunctions` always raises ValueError: it multiplies the kernel row of all N snapshots with singular vectors of N-1 rows (`C39_one_argument_refuted`). It works after `fit(X, Y)`.
* Eigenvalues of modulus at most 1e-16 are dropped with their modes, but `eigenfunctions` still returns all of them, so the two lists need not have the same length (`C39_count_refuted`). The theorems relate them by the list of kept positions.
* Complex data is refused by scikit-learn with ValueError (`C39_complex`); a refused refit keeps the old operator beside the new snapshots.
* A float `svd_rank` of 1 or more, and any negative one, keeps all singular values (`C39_rank`).
* `np.linalg.eig` is called on a symmetric matrix and does not promise orthogonal eigenvectors for a repeated eigenvalue; the theorems assume it there (`eig_sym_ok`). The sign flip for negative eigenvalues of the Gramian is modelled and unreachable for kernels that are scalar products of features.
* `C39_koopman` is about kernels of finitely many real features on which the system acts linearly; `C39_training` is about every kernel whose Gramian is positive semi-definite of finite rank, on the training points.

### BOPDMD
* `conjugate_pairs` averages each eigenvalue with the conjugate of the nearest other one: two eigenvalues with the same sign of the imaginary part are both moved (`C40_same_sign_refuted`), every spectrum of two or more real eigenvalues is rejected with ValueError (`C40_real_spectrum_refuted`), and the result depends on the order in which `set.pop` returns the positions (`C40_order_refuted`).
* The `converged` flag is only set inside the loop: a starting point that already meets the tolerance is reported as not converged (`C41_converged_refuted`). With `remove_bad_bags` such trials count as failures, so exact data with exact starting eigenvalues raises RuntimeError (`C42_exact_data_refuted`).
* Minus the full Jacobian is the derivative of the residual along real directions (`C41_derivative`), along imaginary ones only if the misfit is orthogonal to the slope (`C41_derivative_imaginary`, `C41_derivative_refuted`). The slope of the squared error is right in all directions, with either Jacobian (`C41_gradient`), so the damped steps point downhill (`C41_downhill`). These theorems are about points where the exponentials have full column rank and no singular value is cut off.
* `fit` stores the rank, basis and initial eigenvalues it computed as if the user had given them: later fits keep the modes in the span of the first basis (`C17_bopdmd_keeps_basis`), reject smaller data (`C17_bopdmd_keeps_rank`) and can give wrong answers silently (`C17_bopdmd_refuted`). With 'stable' a given init_alpha is overwritten in place (`C40_init_alpha`).
* `forecast` after `fit_econ` with bagging raises AttributeError, because it reads the snapshots that `fit_econ` does not keep (`C54_bagged_forecast_refuted`).
* `bag_maxfail=0` raises RuntimeError after the first successful trial (`C42_maxfail_zero_refuted`).
* Not modelled: warnings and verbose printing; NaN (zero data makes the relative error 0/0 and a zero coefficient row makes the mode 0/0: the model uses x/0 = 0); trust-region scaling is modelled as written; `fit_econ` and `fit` share `fit_from`.

### COSTS
* A refit whose time vector has the wrong length raises, but has already replaced the window length: the object is left with windows of neither fit (`C43_failed_refit_refuted`).
* Time steps between windows that do not overlap are NaN in every band (`C44_uncovered`).
* The data of a window is multiplied by the kernel before its decomposition, and the result is averaged with the same kernel without dividing by it: even when each window is decomposed exactly, the reconstruction differs from the data by the sum of `weight * (kernel - 1) * (data - window mean)` (`C44_exact`).
* Refitting keeps the bands of the former fit (`C44_stale_refuted`). The window means are added to the band of the smallest centroid, and are lost when no eigenvalue has that label (`C44_means_refuted`).
* With the "period" transform the bands are numbered from fast to slow (`C45_period_refuted`), and the background is the fastest band. `transform_method=None`, the documented default, raises ValueError (`C45_default_refuted`); a clusterer without `fit_predict` raises AttributeError instead of the intended ValueError (`C45_method_refuted`).
* The default range of the sweep is empty for ranks below four (`C45_sweep_small_refuted`).
* With `global_svd=True`, the default, `use_last_freq` and `reset_alpha_init` have no effect (`C56_last_refuted`); `init_alpha` is ignored without `initialize_artificially` (`C56_init_alpha_refuted`); `svd_rank=None` is refused (`C56_no_rank`).
* With `global_svd=True` fit stores the basis in `pydmd_kwargs`, a dictionary it shares with the caller; another object built from the same dictionary uses that basis (`C56_leak_refuted`).
* Not modelled: plots other than those of C66 and C67; the `centroids` argument of `scale_reconstruction`, which is ignored by the code; NaN inside the data.

### LANDO
* `predict` of a model fitted on snapshots with several axes raises ValueError, because `f` refuses the flat columns it is given (`C48_predict_refuted`); for complex states it drops the imaginary part at each step (`C48_predict_complex_refuted`).
* The Cholesky update squares the entries of a complex row without a modulus (lando.py:314), so the theorems are for real data.
* The gradient of the Gaussian kernel has the wrong sign (lando.py:586: the derivative in y of exp(-g|d-y|^2) is +2g(d-y)exp(...)), so for rbf the linear part is not the derivative of the model (`C47_rbf_refuted`, `C47_rbf_model_refuted`). For linear and polynomial kernels, and for a custom kernel with a right gradient, it is.
* The modes are computed with V of the SVD of the transposed gradient without conjugation; `C47_modes` is for real gradients of full rank.
* After a second `analyze_fixed_point` the amplitudes are those of the first one (`C57_amplitudes_refuted`); when the numbers of non-zero eigenvalues differ it raises IndexError (`C57_count_refuted`, met by `C57_case`); modes, eigenvalues and amplitudes read in between stay for ever (`C57_read_refuted`); `linear` of an analysis without compute_A is that of an earlier one (`C57_linear_refuted`, `C57_case2`).
* `fit` on an analysed object keeps the old bias, linear operator, modes and eigenvalues (`C57_refit_refuted`). `update` repeats the analysis, and there bias, linear and nonlinear are right (`C57_update`).
* Not modelled: `predict(continuous=True)`, warnings, the time dictionaries, other sklearn metrics; a custom kernel is applied pair by pair.

### VarProDMD
* The Jacobian given to the optimiser is wrong in the imaginary directions unless the misfit is orthogonal to the slope (`C49_jacobian_imaginary`, `C49_jacobian_refuted`). The product of Jacobian and residual, hence the gradient of the cost, is right in all directions (`C49_gradient`), so stationary points are not affected (`C49_stationary`).
* The residual is 0 when there are no more samples than eigenvalues, whatever the eigenvalues (`C49_few_samples`); where the exponentials are linearly dependent it is not the misfit (`C49_cost_refuted`).
* The modes are those of the last point the optimiser evaluated, which need not be its answer; then an exact fit exists and is missed (`C49_schedule_refuted`).
* The arguments of the initial least squares problem are swapped: the optimiser starts from the reciprocals of the eigenvalues (`C49_initial_refuted`, `C49_initial_case`).
* Sorting by 'auto' uses real and imaginary parts with their signs, not the documented absolute values (`C49_auto`, `C49_auto_refuted`).
* `ssr` divides by 1 whenever there is no compression (`C49_ssr`), since the number subtracted exceeds the number of samples.
* A compression that leaves at most one sample raises TypeError (`C49_bad_compression`).
* `fit` does not reset modes, eigenvalues and amplitudes already read: a later fit changes only the forecast (`C49_stale`, `C49_refit_refuted`).
* An unknown sorting string raises ValueError but leaves an object that counts as fitted and whose accessors raise AttributeError (`C49_bad_sort`).
* `forecast` ignores `modes_activation_bitmask` (`C49_mask`).

mrCOSTS (C58):
* The default transform_method (None) makes every fit raise, and so does the default n_components_array without cluster_sweep (`C58_default_refuted`, `C58_no_count_refuted`); the levels of an earlier fit are lost.
* With cluster_sweep an object can be fitted only once: the second fit raises ValueError (`C58_refit_refuted`).
* After a clustering, a refit does not change what the next clustering uses (`C58_stale_refuted`).
* Lists of different lengths are not refused by the constructor, except n_components_array against step_array (`C58_constructor_check`); fit drops levels silently and the clustering raises (`C58_truncated_refuted`).
* A later level with a single window makes the clustering raise (`C58_single_window_refuted`); a column that is slow in all windows makes the reconstruction raise after a successful clustering (`C58_slow_column_refuted`).
* A window without fast eigenvalues, in a single level, takes the global class of a neighbour: its slow part is counted twice (`C58_slow_window_refuted`).  This is why `C58_classes` asks for a fast eigenvalue in every window.
* The means of the background do not follow costs_recon_kwargs (`C58_background_means`), unlike those of the levels.

Saving COSTS and mrCOSTS (C46; the documentation promises "a complete round trip of the COSTS object without alteration"):
* eig_constraints=None, the default value of BOPDMD, is saved and can never be read back: TypeError (`C46_constraints_none_refuted`); a callable comes back as a set of letters (`C46_constraints_callable_refuted`).
* A restored object cannot be clustered again (`C46_recluster_refuted`), because _svd_rank_pre_allocate is not saved.
* With svd_rank 0 or -1 and global_svd=False a fitted object cannot be saved (`C46_automatic_rank_refuted`).
* Levels of the same window length overwrite each other's file (`C46_overwritten_refuted`); levels in another order than increasing window length come back reordered (`C46_levels`), and the background of the reconstruction is then that of another level.
* from_netcdf forgets transform_method and costs_recon_kwargs (visible in `as_mr`): the global clustering must be given its transformation (`C46_multires`).
* Not modelled: what the netCDF library itself does to attribute types; an attribute list given as a numpy array.

* Not modelled (VarProDMD): the NaN modes of a zero amplitude, the options passed to least_squares.

### Read in the code, not stated as theorems
complex64 eigenvalues are sorted in their own precision; MrDMD time dictionaries hold tend = T; callable weight builders alias their result; a tuple of weights is not length-checked in `HankelDMD.__init__`; the order of `set` cut indexes is unspecified.

## 5. Assumptions per theorem

Every `Properties_*.v` prints the assumptions of each of its theorems.  All theorems are "Closed under the global context" except

* `C21_threshold_log`: standard-library axioms of the reals, `ClassicalDedekindReals.sig_not_dec`, `ClassicalDedekindReals.sig_forall_dec`, `FunctionalExtensionality.functional_extensionality_dep`, `Classical_Prop.classic`.
* `C68_frequency`, `C68_alias`, `C68_real`, `C68_real_refuted`, `C68_growth`, `C68_growth_refuted`, `C68_varpro`, `C68_no_time_refuted`, `C68_unfitted`: the same four or some of them, through the reals.

`Ideal.v` constructs one instance of the numerical library that meets every contract of `Spec_Operator.v` for every argument (`ideal_contracts`): an SVD of any matrix, an eigendecomposition that is a basis whenever one exists, pseudo-inverses, least squares, solve, matrix square root, norms and integer powers.
So the contract hypotheses are jointly satisfiable, and `C14_end_to_end` and `C51_end_to_end` state recovery of every diagonalisable invertible system with no hypothesis on the calls.

`coqchk` also lists constants sealed by module signatures in mathcomp (`finfun`, `card`, `algC.Algebraics.Implementation.*`, `Under_rel`, ...).
These are defined, opaque constants of the libraries, not axioms; `Print Assumptions` does not report them.
