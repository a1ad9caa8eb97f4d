{"id": "C01", "title": "Activation bitmask is a lossless view", "statement": "After fit, for any sequence of assignments to modes_activation_bitmask interleaved with in-place edits of the arrays exposed by modes, eigs and amplitudes, the exposed arrays are always the entries, in original mode order, at the positions where the current mask is True, of one full-length (modes, eigs, amplitudes) record that starts as the fitted values and changes only by the user's edits. Disabling a mode and enabling it again never loses or alters its values, and all three quantities stay paired.", "quantifier": "every number of modes, every fitted value, every finite history of mask assignments and in-place edits", "why_tests_cant": "the failure mode is a particular interleaving of edits and mask changes; histories are unbounded", "anchors": ["pydmd/dmdbase.py:ActivationBitmaskProxy", "pydmd/dmdbase.py:DMDBase.modes_activation_bitmask", "pydmd/dmdbase.py:DMDBase.eigs", "pydmd/dmdbase.py:DMDBase.amplitudes"]}
{"id": "C02", "title": "Rejected bitmask assignments change nothing", "statement": "Assigning modes_activation_bitmask on an unfitted instance or with a non-boolean array raises RuntimeError; with a boolean array of the wrong shape raises ValueError; in every rejected case the mask read back and every exposed value is the same as before. An accepted assignment is read back exactly.", "quantifier": "every object state reachable by fit, mask assignment, edits and indexing; every candidate value", "why_tests_cant": "requires all malformed values in all states, including values rejected after a previous successful restriction", "anchors": ["pydmd/dmdbase.py:DMDBase.modes_activation_bitmask"]}
{"id": "C03", "title": "Indexing an instance selects exactly the requested modes", "statement": "dmd[key] accepts an int, a slice or a list of distinct ints and returns an instance exposing exactly the modes whose (Python-normalised) positions are in key, in original order, and leaves the mask of the original as it was. Any other key type, a list with a non-int element (including elements of NumPy integer arrays) or with repeated elements raises ValueError, an out-of-range int or list element raises IndexError. Positions always refer to the full set of modes, even when the original instance is restricted. Two spellings of one position (for instance 0 and -n) are both accepted.", "quantifier": "every number of modes, every key, every state of the original's mask", "why_tests_cant": "slices with arbitrary start/stop/step and negative indexes form an unbounded family", "anchors": ["pydmd/dmdbase.py:DMDBase.__getitem__"]}
{"id": "C04", "title": "What an indexed copy shares with the original", "statement": "The instance returned by dmd[key] is independent as far as its mask and attribute assignments go: assigning the mask or dmd_time on either one never changes what the other exposes. In-place item assignment on dmd_time is shared by both, and edits made in place on the original's exposed eigs/amplitudes/modes that were not yet flushed by a mask change are absent from the copy.", "quantifier": "every interleaving of operations on original and copy", "why_tests_cant": "aliasing is a property of all interleavings, not of one script", "anchors": ["pydmd/dmdbase.py:DMDBase.__getitem__", "pydmd/dmdbase.py:DMDBase._allocate_modes_bitmask_proxy", "pydmd/dmdbase.py:ActivationBitmaskProxy.__init__"]}
{"id": "C05", "title": "Time dictionaries stay well formed", "statement": "From fit onwards original_time and dmd_time hold exactly the keys t0, tend, dt through any sequence of item assignments; assigning any other key raises KeyError and changes nothing; editing one never changes the other; before fit both reads raise RuntimeError. Assigning a whole dictionary to dmd_time stores an independent copy but performs no validation, so the key invariant holds only as long as the assigned dictionaries are well formed.", "quantifier": "every history of reads, item assignments and whole-dictionary assignments", "why_tests_cant": "invariant over unbounded histories and arbitrary keys", "anchors": ["pydmd/dmdbase.py:DMDTimeDict", "pydmd/dmdbase.py:DMDBase.dmd_time", "pydmd/dmdbase.py:DMDBase.original_time", "pydmd/dmdbase.py:DMDBase._set_initial_time_dictionary"]}
{"id": "C06", "title": "Timesteps are the arithmetic progression of the time dictionary", "statement": "For dt>0, dmd_timesteps/original_timesteps is t0, t0+dt, t0+2dt, ...; the first entry is t0 (when tend >= t0) and the last entry is the first one that is >= tend, so it is < tend+dt. It equals tend, and there are exactly k+1 entries, when tend = t0+k*dt. When tend-t0 is not a multiple of dt the progression runs past tend.", "quantifier": "all rational t0, tend, dt>0 (exact arithmetic)", "why_tests_cant": "universal arithmetic statement including non-commensurate windows", "anchors": ["pydmd/dmdbase.py:DMDBase.dmd_timesteps", "pydmd/dmdbase.py:DMDBase.original_timesteps"]}
{"id": "C07", "title": "Dynamics follow the eigenvalue powers anchored at the chosen snapshot", "statement": "Row k, column j of dynamics is amplitude_k * eig_k ** ((t_j - t0)/dt - s) with t0, dt from original_time and s the index of the snapshot used for the amplitudes (0 for boolean opt, opt itself when non-negative, T+opt when negative). Hence the column of the anchoring snapshot equals the amplitudes, consecutive columns differ by one multiplication by the eigenvalue, and opt=-n and opt=T-n give the same dynamics.", "quantifier": "all eigenvalues, amplitudes, time windows aligned with the sampling, all opt values", "why_tests_cant": "algebraic identity over all complex values and exponents", "anchors": ["pydmd/dmdbase.py:DMDBase.dynamics", "pydmd/dmdbase.py:DMDBase._translate_eigs_exponent"]}
{"id": "C08", "title": "Reconstruction is additive over modes", "statement": "reconstructed_data is the sum over active modes of the outer product of the mode with its dynamics row: masks partitioning the modes give reconstructions that add up to the full reconstruction, and the empty mask gives zero.", "quantifier": "all sizes, modes, dynamics and masks", "why_tests_cant": "needs every mask over every number of modes", "anchors": ["pydmd/dmdbase.py:DMDBase.reconstructed_data", "pydmd/dmdbase.py:DMDBase.dynamics", "pydmd/dmdbase.py:ActivationBitmaskProxy.change_bitmask"]}
{"id": "C09", "title": "Snapshot flattening keeps every sample", "statement": "The flattened snapshot matrix has one column per snapshot and entry (i,j) is the i-th element in row-major order of the j-th snapshot, identically for an ndarray with time on the last axis and for the list of its slices. A single snapshot, a one-dimensional input, or a list with differing shapes raises ValueError; nothing else about the shape is rejected. The original snapshot shape is recoverable.", "quantifier": "every rank, shape and number of snapshots", "why_tests_cant": "index identity over all shapes", "anchors": ["pydmd/snapshots.py:Snapshots"]}
{"id": "C10", "title": "SVD rank selection", "statement": "With singular values s of a matrix with r rows and c columns: an integer svd_rank>=1 yields min(svd_rank, min(r,c)); svd_rank=0 yields max(1, number of singular values above the threshold); 0<svd_rank<1 yields the least k such that the first k squared singular values carry at least that fraction of the energy; everything else (negative, non-integer >=1) yields min(r,c). The result is always in 1..min(r,c) (given a non-zero matrix in the fractional case) and is monotone in the fraction.", "quantifier": "all matrix shapes, all non-negative singular values, all svd_rank values", "why_tests_cant": "boundary behaviour over all fractions and spectra", "anchors": ["pydmd/utils.py:_compute_rank", "pydmd/utils.py:_svht", "pydmd/utils.py:compute_rank", "pydmd/edmd.py:EDMDOperator._compute_rank_from_svals"]}
{"id": "C11", "title": "Pseudo-Hankel matrix", "statement": "pseudo_hankel_matrix(X,d) of an n-by-m matrix has n*d rows and m-d+1 columns, and row k*n+i, column j is X[i,j+k]; its first n rows are the first m-d+1 snapshots, and every snapshot appears exactly at the positions (k, j-k).", "quantifier": "all n, m, 1<=d<=m and all entries", "why_tests_cant": "index identity over all sizes", "anchors": ["pydmd/utils.py:pseudo_hankel_matrix"]}
{"id": "C12", "title": "Total least squares projection", "statement": "compute_tlsq with tlsq_rank=0 returns its inputs unchanged. Otherwise both outputs are the inputs multiplied on the right by one and the same projector, so columns stay paired, applying it does not change the linear relation Y=AX, and it is idempotent for the same right singular vectors; with rank at least the number of columns (square unitary factor) it is the identity.", "quantifier": "all matrices, all ranks, every SVD satisfying its specification", "why_tests_cant": "algebraic law over all matrices", "anchors": ["pydmd/utils.py:compute_tlsq"]}
{"id": "C13", "title": "Modes and eigenvalues are eigenpairs of the fitted operator", "statement": "For every SVD X=USV* with invertible S and every eigendecomposition of the reduced operator, the exact modes are eigenvectors of the full operator A=Y V S^-1 U* for the reported (non-zero) eigenvalues, and the projected modes are eigenvectors of the projected operator U U* A; both also hold with user supplied rescaling. The reduced operator is U* A U. Untruncated, A is a least-squares map from X to Y; with tikhonov_regularization=l it solves ridge regression with parameter l*norm(X). With forward_backward=True the eigenvalues need not be eigenvalues of an exactly linear system.", "quantifier": "all sizes, all snapshot pairs, all decompositions meeting the LAPACK contracts", "why_tests_cant": "linear-algebra identity over all matrices", "anchors": ["pydmd/dmdoperator.py:DMDOperator.compute_operator", "pydmd/dmdoperator.py:DMDOperator._compute_modes", "pydmd/dmdoperator.py:DMDOperator._compute_eigenquantities"]}
{"id": "C14", "title": "Exact recovery of linear dynamics", "statement": "If the snapshots satisfy x[k+1] = A x[k], the last snapshot is a combination of the previous ones, nothing is truncated by the SVD, and the reduced operator is diagonalisable (with non-zero eigenvalues for exact modes), then the one-step prediction of every snapshot is the next snapshot, and with amplitudes taken from any one snapshot (or optimal amplitudes of exact modes) the reconstruction at time t0+k*dt is the k-th state of the system, inside the training window (where it is the snapshot) and after it. It fails when the last snapshot leaves the span of the others and for opt=True with projected modes. fit(S[:, :-1], S[:, 1:]) gives what fit(S) gives; for any pair the amplitudes come from the first argument.", "quantifier": "all state dimensions, numbers of snapshots and linear systems", "why_tests_cant": "universal numerical-method correctness statement", "anchors": ["pydmd/dmd.py:DMD.fit", "pydmd/dmd.py:DMD.predict", "pydmd/dmdbase.py:DMDBase._compute_amplitudes", "pydmd/dmdbase.py:DMDBase.reconstructed_data"]}
{"id": "C15", "title": "Sorting eigenvalues keeps eigenpairs together", "statement": "sorted_eigs reorders eigenvalues and eigenvectors by one permutation: 'abs' is non-decreasing in modulus, 'real' non-decreasing lexicographically in (real, imaginary), False leaves the order alone and any other value raises ValueError; no eigenpair is lost, duplicated or split.", "quantifier": "all eigenvalue lists including ties", "why_tests_cant": "ties and arbitrary lengths", "anchors": ["pydmd/dmdoperator.py:DMDOperator._compute_eigenquantities"]}
{"id": "C16", "title": "predict multiplies each mode by its eigenvalue", "statement": "When the modes are linearly independent, predict maps every combination of modes sum_k c_k phi_k to sum_k c_k eig_k phi_k, is linear in its input, and annihilates everything its pseudo-inverse annihilates.", "quantifier": "all modes with full column rank, all eigenvalues and inputs", "why_tests_cant": "algebraic identity", "anchors": ["pydmd/dmd.py:DMD.predict"]}
{"id": "C17", "title": "A fit depends only on configuration and data", "statement": "Fitting an instance again gives the same operator, modes, eigenvalues and amplitudes as fitting a fresh instance with the same constructor arguments on the same data, whatever was fitted before, when rescale_mode is not 'auto'. With rescale_mode='auto' the first fit's singular values are kept and used (or rejected with ValueError) by later fits, RDMD keeps the first test matrix, MrDMD keeps a reduced max_level, BOPDMD keeps the first svd_rank, projection basis and initial eigenvalues.", "quantifier": "every history of previous fits", "why_tests_cant": "needs all previous histories", "anchors": ["pydmd/dmd.py:DMD.fit", "pydmd/dmdoperator.py:DMDOperator.compute_operator", "pydmd/dmdbase.py:DMDBase._reset", "pydmd/rdmd.py:RDMD.fit", "pydmd/bopdmd.py:BOPDMD.fit", "pydmd/mrdmd.py:MrDMD.fit"]}
{"id": "C18", "title": "State after a fit that raises", "statement": "When fit raises at any point, the instance exposes no amplitudes or mask from the failed fit: after a failure on a never-fitted instance it is still reported unfitted if the failure came before the operator was computed; after a failed refit the instance still reports fitted, exposes the operator's previous modes and eigenvalues without mask, has lost the previous amplitudes, and reading amplitudes or the mask raises.", "quantifier": "every crash point inside fit and every prior history", "why_tests_cant": "crash points are not reachable from normal tests", "anchors": ["pydmd/dmd.py:DMD.fit", "pydmd/dmdbase.py:DMDBase._reset", "pydmd/dmdbase.py:DMDBase.fitted"]}
{"id": "C19", "title": "MrDMD tree positions are in bijection with (level, leaf)", "statement": "For every depth the pairs level<=max_level, leaf<2^level address pairwise distinct slots that exhaust the tree; reads return the last write to that pair; level beyond the depth or leaf>=2^level raises ValueError; iteration visits each node once, level by level.", "quantifier": "all depths, all positions, all write histories", "why_tests_cant": "unbounded depth", "anchors": ["pydmd/mrdmd.py:BinaryTree"]}
{"id": "C20", "title": "MrDMD splits the snapshots exactly", "statement": "At every level the snapshot columns are divided among the 2^level leaves into consecutive, disjoint blocks covering every column, whose sizes differ by at most one (larger first). When 2^level divides the number of snapshots a leaf's block holds exactly the snapshots whose time lies in the leaf's time interval; otherwise a block starts late by at most T mod 2^level, so the two can disagree and blocks of consecutive levels need not nest.", "quantifier": "all numbers of snapshots and levels", "why_tests_cant": "sizes are unbounded", "anchors": ["pydmd/mrdmd.py:MrDMD.fit", "pydmd/mrdmd.py:MrDMD.partial_time_interval"]}
{"id": "C21", "title": "MrDMD depth clamping", "statement": "For T>=4 snapshots the effective max_level is at most 1+floor(log2(T/4)) and every leaf of every level gets at least two snapshots, so the leaf fits are well posed; for fewer snapshots this fails and the leaf fit rejects a single snapshot.", "quantifier": "all T and requested levels", "why_tests_cant": "boundary over all sizes", "anchors": ["pydmd/mrdmd.py:MrDMD.fit", "pydmd/mrdmd.py:MrDMD._build_tree"]}
{"id": "C22", "title": "MrDMD time windows select exactly the intersecting bins", "statement": "For t0<tend time_window_bins(t0,tend) returns exactly the (level, leaf) pairs whose interval meets the half-open window, in level/leaf order; the leaf intervals of each level tile the original time window; time_window_eigs and friends concatenate exactly those bins in that order, and raise ValueError when there is none.", "quantifier": "all windows and levels", "why_tests_cant": "all real windows and levels", "anchors": ["pydmd/mrdmd.py:MrDMD.time_window_bins", "pydmd/mrdmd.py:MrDMD.partial_time_interval", "pydmd/mrdmd.py:MrDMD.time_window_eigs"]}
{"id": "C23", "title": "MrDMD levels decompose the data additively", "statement": "Every leaf is fitted on its block of the residual of its level and keeps only modes below max_cycles cycles over the block; the snapshots equal the sum over levels of the per-level reconstructions (cast to the data's dtype) plus the final residual; reconstructed_data is the sum over levels of the concatenated leaf reconstructions, and partial_reconstructed_data of a level is that concatenation. modes, dynamics and eigs of the whole object list the kept modes of all the nodes in the same order (level by level, left to right), dynamics has one row per mode and one column per snapshot, and modes @ dynamics equals reconstructed_data.", "quantifier": "all data, levels and leaf fits", "why_tests_cant": "telescoping over unbounded levels", "anchors": ["pydmd/mrdmd.py:MrDMD.fit", "pydmd/mrdmd.py:MrDMD.reconstructed_data", "pydmd/mrdmd.py:MrDMD.partial_reconstructed_data", "pydmd/mrdmd.py:MrDMD.modes", "pydmd/mrdmd.py:MrDMD.dynamics", "pydmd/mrdmd.py:MrDMD.eigs"]}
{"id": "C24", "title": "HankelDMD time bookkeeping", "statement": "For every requested window of dmd_time the inner DMD is evaluated on a window of delay vectors from which the returned reconstruction has one column per requested timestep, each column being built from delay blocks referring to that very timestep; reconstruction 'first' uses the block with the smallest delay available, 'mean' averages all available blocks. The constructor refuses exactly lists and arrays of weights whose number differs from d and arrays of more than one dimension; refuted: a tuple of another length, an unknown name or another object are only refused at reconstruction.", "quantifier": "all d, window positions and lengths", "why_tests_cant": "off-by-one at both ends for all d and windows", "anchors": ["pydmd/hankeldmd.py:HankelDMD.reconstructed_data", "pydmd/hankeldmd.py:HankelDMD._hankel_first_occurrence", "pydmd/hankeldmd.py:HankelDMD._update_sub_dmd_time", "pydmd/hankeldmd.py:HankelDMD.reconstructions_of_timeindex"]}
{"id": "C25", "title": "Hankel post-processing inverts Hankel pre-processing", "statement": "De-Hankelising the pseudo-Hankel matrix of X returns X for the 'first' and 'mean' methods and for any weights whose sum over the available delays is non-zero; each timestep is covered by at least one and at most d delay blocks.", "quantifier": "all shapes, d and X", "why_tests_cant": "index identity over all sizes", "anchors": ["pydmd/preprocessing/hankel.py:_reconstructions", "pydmd/preprocessing/hankel.py:_first_reconstructions", "pydmd/preprocessing/hankel.py:_HankelPrePostProcessing"]}
{"id": "C26", "title": "Pre/post-processing wrappers compose and round-trip", "statement": "A wrapped instance trains the inner DMD on the pre-processed first argument (positional or keyword X, other arguments untouched) and post-processes exactly reconstructed_data with the state of the latest fit; nested wrappers apply pre-processing outside-in and post-processing inside-out; all other attributes are those of the innermost DMD. Zero-mean and SVD projection are identity round trips (the latter on the span, for real data). Missing training data raises ValueError.", "quantifier": "all nestings, argument shapes, fit histories and data", "why_tests_cant": "arbitrary nesting depth and histories", "anchors": ["pydmd/preprocessing/pre_post_processing.py:PrePostProcessingDMD", "pydmd/preprocessing/zero_mean.py", "pydmd/preprocessing/svd_projection.py", "pydmd/preprocessing/randomized.py"]}
{"id": "C27", "title": "select_modes keeps exactly the modes satisfying the criterion", "statement": "On an instance whose active modes are the first ones (in particular when all are active), select_modes disables exactly the modes for which the criterion is False and returns their positions, leaving stored values and time windows alone; with in_place=False only a new copy is changed. With other masks this fails: positions relative to the active modes are applied to the full mask, so a second selection may keep rejected modes and drop accepted ones. nullify_amplitudes has no effect.", "quantifier": "all instances, criteria and previous masks", "why_tests_cant": "composition of selections over arbitrary masks", "anchors": ["pydmd/dmd_modes_tuner.py:select_modes", "pydmd/dmd_modes_tuner.py:ModesTuner.select"]}
{"id": "C28", "title": "Mode selectors compute the documented predicate", "statement": "threshold(low,up) keeps eigenvalues with low < |eig| < up (strict, documentation says inclusive); stable_modes keeps eigenvalues within the given distance of the unit circle on the inside/outside; compute_integral_contribution ranks modes by weighted integral and integral_contribution(n) keeps the n largest; n=0 keeps everything and a zero max distance is treated as absent.", "quantifier": "all eigenvalues and parameters", "why_tests_cant": "boundary cases over all reals", "anchors": ["pydmd/dmd_modes_tuner.py:ModesSelectors"]}
{"id": "C29", "title": "stabilize_modes moves eigenvalues to the unit circle and nothing else", "statement": "Every active eigenvalue with inner_radius < |eig| < outer_radius (strictly) becomes eig/|eig| and its amplitude is multiplied by |eig|; other modes, the mask and the time windows are unchanged; so amplitude*eig is preserved, the modulus of the dynamics becomes constant, a second application changes nothing, and the indexes reported are exactly those changed.", "quantifier": "all eigenvalues, amplitudes and radii", "why_tests_cant": "boundary and idempotence over all complex values", "anchors": ["pydmd/dmd_modes_tuner.py:stabilize_modes", "pydmd/dmd_modes_tuner.py:ModesTuner.stabilize"]}
{"id": "C30", "title": "ModesTuner works on isolated copies unless told otherwise", "statement": "ModesTuner(in_place=False) never changes the DMD instances it was given, whatever sequence of select/stabilise calls follows; with in_place=True the given instances receive exactly the tuned state; get/subset return single instance or list consistent with how it was built; an unknown criterion raises ValueError and leaves the instances alone.", "quantifier": "all sequences of tuner operations and instance lists", "why_tests_cant": "histories and aliasing", "anchors": ["pydmd/dmd_modes_tuner.py:ModesTuner"]}
{"id": "C31", "title": "DMD with control", "statement": "reconstructed_data(u) follows the recursion x[k+lag] = (modes diag(eigs) pinv(modes)) x[k] + B u[k] from the first lag snapshots, has exactly lag more snapshots than inputs, and rejects an input sequence of the wrong length with RuntimeError; for the fitted control input of an exactly linear controlled system it reproduces the snapshots, with B given or identified; fit rejects lag<1. Changing dmd_time['dt'] does not resample the controlled system: the step is an integer power of A with B applied once. A one-dimensional control input is one row: one channel, one value per step.", "quantifier": "all dimensions, lags and inputs", "why_tests_cant": "recursion over unbounded horizons", "anchors": ["pydmd/dmdc.py:DMDc"]}
{"id": "C32", "title": "Compressed, randomised and forward-backward DMD relate to plain DMD", "statement": "CDMD with the identity compression, with any compression with orthonormal columns, or with any compression that loses nothing (its Gram matrix fixes the data) and no truncation, gives the eigenvalues of plain DMD, and every (eigenvalue, mode) pair is an eigenpair of the plain DMD operator; on exactly linear data every pair is an eigenpair of the system. Compression 'sample' keeps distinct measurements. The amplitudes solve the least-squares problem selected by opt on the uncompressed snapshots. Unknown compression strings, rescale_mode='auto' and Tikhonov regularisation are refused. RDMD's projection has orthonormal columns, so RDMD has plain DMD's spectrum on data inside the sampled range; its test matrix is drawn once and reused by every later fit (a refit with a different number of snapshots fails). FbDMD's operator squares to the product of the forward operator and the inverse of the backward operator.", "quantifier": "all data, compressions and draws meeting the stated conditions", "why_tests_cant": "algebraic identity", "anchors": ["pydmd/cdmd.py:CDMDOperator", "pydmd/rdmd.py:RDMD", "pydmd/utils.py:compute_rqb"]}
{"id": "C33", "title": "Physics-informed manifolds are respected, and the fit is the best one on the manifold", "statement": "For every data pair the operator PiDMD returns for a manifold has the promised structure and no other matrix with that structure is closer to Y = A X in the Frobenius norm: unitary, symmetric and skew-symmetric (on the projected data), upper and lower triangular (independent rows of X), diagonal and banded with the widths of manifold_opt, Toeplitz, Hankel, circulant and its unitary/symmetric/skew-symmetric variants (real X, no rank truncation), symmetric tridiagonal (real data), block circulant, block circulant with tridiagonal blocks, block circulant with circulant blocks. The stored modes and eigenvalues are eigenpairs of that operator. Missing compute_A, unknown manifold, wrong block shape or widths raise ValueError. Outside these conditions the documented structure or optimality fails: dependent rows for the triangular manifolds, complex data for symmetric and circulant, truncation for the unitary circulant variants.", "quantifier": "all sizes, data pairs, manifolds, options and ranks; every result of the numerical routines that meets their contracts", "why_tests_cant": "optimality is a comparison with every other matrix of the manifold, for all sizes and data", "anchors": ["pydmd/pidmd_utils.py", "pydmd/pidmd.py:PiDMDOperator"]}
{"id": "C34", "title": "ParametricDMD layout identities", "statement": "Snapshots of parameter p at time t and space x are placed and recovered at one fixed place through POD projection, stacking, forecasting, interpolation and reconstruction: the POD sees them in column p*n+t, partitioned instance p is fitted with block p of the coefficients and a monolithic one with the blocks on top of each other, forecasts are regrouped per parameter, one interpolation is made per instant, and with exact POD, DMD and interpolation the reconstruction at a training parameter equals the training snapshots, partitioned or monolithic.", "quantifier": "all numbers of parameters, POD ranks, times, space sizes", "why_tests_cant": "index identity over all sizes", "anchors": ["pydmd/paramdmd.py:ParametricDMD"]}
{"id": "C35", "title": "ParametricDMD keeps its instances in step", "statement": "parameters are stored with one row per parameter and the last successful assignment wins; more than two dimensions raise ValueError; every read of forecasts, interpolations or reconstructions of a partitioned instance puts all its DMD instances on the times of the reference, an assigned time survives any number of reads; a number of parameters that differs from the snapshots or from the instances raises ValueError without touching the fitted instances; reading before parameters are set raises ValueError, reading before a fit raises what the inner instance raises (RuntimeError when partitioned).", "quantifier": "every history of fit, parameter and time assignments", "why_tests_cant": "histories", "anchors": ["pydmd/paramdmd.py:ParametricDMD"]}
{"id": "C36", "title": "Sparsity-promoting DMD", "statement": "SpDMD: with enforce_zero the amplitudes of the discarded modes are exactly zero; with exact modes the amplitudes of fit are the unique best ones (least error over all the snapshots) among those vanishing on the discarded modes; each alpha step minimises error plus quadratic penalty; the loop makes at most max_iterations iterations and stops at the first passing the test; fit never fails in the factorisation for rho>0. False of the code: the soft threshold is the cited one; stopping at the first test (or max_iterations=0) keeps the significant modes; modes the data has no component along are discarded; an integer opt gives a correct reconstruction.", "quantifier": "all data, all parameters, all numbers of iterations, any linear-algebra routines meeting their contracts at the calls made", "why_tests_cant": "optimality is against every other amplitude vector and the loop statement is for every number of iterations", "anchors": ["pydmd/spdmd.py:SpDMD", "pydmd/spdmd.py:soft_thresholding_operator"]}
{"id": "C37", "title": "HAVOK Hankel embedding round trip", "statement": "hankel puts sample j + r*lag of variable i in row r*n+i, column j, and raises ValueError exactly when the data are too short (or not 1-D/2-D). dehankel takes each sample from the last delay that contains it; dehankel(hankel(X)) = X for real data whenever lag is at most the number of columns of the embedding (or there is one delay), and otherwise some samples of the result are uninitialised memory; imaginary parts are dropped. Mapping all the embeddings of an untruncated fit back gives the original samples; structured HAVOK gives one sample fewer.", "quantifier": "all sizes, delays and lags", "why_tests_cant": "index identity and coverage for all sizes", "anchors": ["pydmd/havok.py:HAVOK.hankel", "pydmd/havok.py:HAVOK.dehankel"]}
{"id": "C38", "title": "HAVOK forcing bookkeeping", "statement": "The slices of active forcing split increasing indexes, in order, into groups whose gaps are at most the jump distance, with more than it between groups; every index lies in exactly one slice, and with jump distance one the slices contain nothing else. The threshold leaves at most p/2 of the histogram on each side and exists exactly for 0 < p < 2. The linear dynamics and the forcing are the first r-num_chaos and the last num_chaos embeddings, A and B the corresponding blocks of the operator; the embeddings are orthonormal leading singular vectors; whichever of lstsq, pinv or a non-truncating DMD is used the operator is V^h dV/dt, so (A, B) is the best linear relation. A failing fit keeps the stored arrays.", "quantifier": "all indicator sequences and ranks", "why_tests_cant": "run-length structure for all sequences", "anchors": ["pydmd/havok.py:HAVOK._get_index_slices", "pydmd/havok.py:HAVOK.linear_dynamics", "pydmd/havok.py:HAVOK.forcing"]}
{"id": "C39", "title": "Extended DMD: Koopman eigenpairs, modes and eigenfunctions", "statement": "EDMD discards exactly the eigenvalues of modulus <= 1e-16 with their modes and keeps the others paired and in order; the singular values are non-negative, descending, their squares eigenvalues of the kernel matrix with the returned vectors, as many as svd_rank asks (all, a number, or the fewest reaching an energy). When the kernel is a product of features on which the system acts linearly and the rank is not cut, each eigenfunction is multiplied by its eigenvalue in one step of the system, and the state is the sum of modes times eigenfunctions; with the linear kernel the pairs are eigenpairs of X X^+ Y X^+, so of the system itself for exact linear data. svd_rank=0, bad kernel parameters and complex data are rejected.", "quantifier": "all kernels, sizes, real snapshot pairs, svd_rank arguments and points", "why_tests_cant": "kernels, spectra and points are unbounded; a wrong pairing or a transposed factor is invisible on symmetric or full-rank examples", "anchors": ["pydmd/edmd.py:EDMDOperator.compute_operator", "pydmd/edmd.py:EDMDOperator._compute_feature_matrix_svd", "pydmd/edmd.py:EDMD.eigenfunctions", "pydmd/edmd.py:EDMD.__init__"]}
{"id": "C40", "title": "BOP-DMD eigenvalue constraints hold on every accepted iterate", "statement": "With 'stable' every eigenvalue has non-positive real part and others are unchanged; with 'imag' every real part is zero; 'conjugate_pairs' matches each eigenvalue with a nearest partner of its conjugate and averages the two, leaving one made real exactly when the number is odd; the outcome is closed under conjugation when partners have imaginary parts of opposite sign, an already clean spectrum of distinct conjugate pairs is unchanged, and a failing pairing raises ValueError; constraints combine; 'stable'+'imag' and unknown names are rejected at construction. The eigenvalues returned by fit without bagging satisfy the constraint, and the means reported with bagging keep 'stable' and 'imag'.", "quantifier": "all eigenvalue vectors and all pairing orders", "why_tests_cant": "set.pop order and all spectra", "anchors": ["pydmd/bopdmd.py:BOPDMDOperator._push_eigenvalues", "pydmd/bopdmd.py:BOPDMD._check_eig_constraints"]}
{"id": "C41", "title": "BOP-DMD variable projection never increases the error", "statement": "The residual error of the returned (B, alpha) is at most that of the initial guess, strictly decreasing over accepted steps; at most maxiter outer and maxlam inner steps are taken; the returned B is the least-squares fit for the returned alpha; the step solves the damped least-squares problem of the projected Jacobian. With the full Jacobian, minus the Jacobian is the derivative of the residual, B being refitted, when the eigenvalues move along the real axis; along the imaginary axis only if the misfit is orthogonal to the slope. With the full or the shortened (Kaufman) Jacobian, the slope of the squared error in every complex direction is -2 Re <J d, residual>; hence every damped step points strictly downhill unless the error is stationary, and J* residual = 0 exactly at the stationary points. One iteration takes the first of the dampings lambda, lambda*lamup, ..., lambda*lamup^maxlam whose step lowers the error and gives up only if none does; after a success at the first one the damping stays between a third and twice of what it was, growing only if less than half of the predicted improvement was reached; the column scales lie between 1e-6 and 1. The converged flag implies error<tol, but a start that meets tol is reported as not converged.", "quantifier": "all data, options and least-squares oracles", "why_tests_cant": "loop invariant over all oracles", "anchors": ["pydmd/bopdmd.py:BOPDMDOperator._variable_projection"]}
{"id": "C42", "title": "BOP-DMD bagging", "statement": "A bag holds distinct, increasing row indexes of the requested size, all in range; invalid sizes raise ValueError. The bagging loop aggregates exactly num_trials successful trials; with remove_bad_bags a run of bag_maxfail consecutive failures raises RuntimeError; the reported mean is the arithmetic mean of the kept trials and the variance is non-negative.", "quantifier": "every sequence of random bags and trial outcomes", "why_tests_cant": "all random schedules", "anchors": ["pydmd/bopdmd.py:BOPDMDOperator._bag", "pydmd/bopdmd.py:BOPDMDOperator.compute_operator"]}
{"id": "C43", "title": "COSTS windows cover the data", "statement": "The sliding windows all have the requested length, lie inside the time axis, start at multiples of the step (the last one is aligned to the end when the step does not fit), and together cover every time step exactly when the step is at most the window length or the data is no longer than two windows; a window longer than the data, or a time vector of another length, raises ValueError. A refit that is refused leaves the object with the windows of neither fit.", "quantifier": "all lengths, steps and sizes", "why_tests_cant": "off-by-one over all sizes", "anchors": ["pydmd/costs.py:COSTS._build_windows", "pydmd/costs.py:COSTS.get_window_indices", "pydmd/costs.py:COSTS.fit"]}
{"id": "C44", "title": "COSTS reconstruction is a weighted average of the windows", "statement": "At every covered time step the COSTS reconstruction is a convex combination of what the windows covering it say, with weights that do not depend on the data; low and high frequency parts add up to it; windows that agree are reproduced; the result stays between bounds common to all windows. When every window is decomposed exactly the result still differs from the data by a stated term, because each window's data is multiplied by the kernel before the decomposition and never divided by it. Bands of an earlier fit survive a refit.", "quantifier": "all sizes, windows and window reconstructions", "why_tests_cant": "partition of unity over all window layouts", "anchors": ["pydmd/costs.py:COSTS.scale_reconstruction", "pydmd/costs.py:COSTS.global_reconstruction", "pydmd/costs.py:COSTS.scale_separation"]}
{"id": "C45", "title": "COSTS frequency bands are ordered", "statement": "After clustering, band numbers are a renumbering of the clusterer's labels: centroids increase with the band number, every eigenvalue keeps its cluster, eigenvalues of a lower band are slower than those of a higher one (with the period transform: faster), conjugate pairs share a band. The sweep over the number of bands keeps the number with the best score; with its default range it fails for small ranks.", "quantifier": "every clustering result", "why_tests_cant": "all permutations", "anchors": ["pydmd/costs.py:COSTS._cluster", "pydmd/mrcosts.py:mrCOSTS._global_cluster"]}
{"id": "C46", "title": "COSTS and mrCOSTS: saving and restoring", "statement": "from_xarray(to_xarray(c)) restores every fitted array, size and frequency band, svd_rank and global_svd, and every BOPDMD keyword under its own name; values come back unchanged except that the string 'None' becomes None, a set becomes a list (a set again for eig_constraints), a callable becomes a text. All reconstructions of the restored object equal those of the original. After fit and cluster_omega the object can be saved iff its number of columns is svd_rank and callables have names. Restoring fails only on eig_constraints that is None or not a collection; clustering again needs an object that was fitted itself. mrCOSTS.to_netcdf/from_netcdf bring back all levels of different window length, sorted by it, and then the same global bands and reconstruction. The keywords of a new object are those given, with eig_sort imag, proj_basis None and use_proj False unless given.", "quantifier": "all fitted objects, all keyword dictionaries, all numbers of levels, all orders of the files", "why_tests_cant": "keyword values, numbers of levels, file orders and data are unbounded", "anchors": ["pydmd/costs.py:COSTS.to_xarray", "pydmd/costs.py:COSTS.from_xarray", "pydmd/costs.py:COSTS._xarray_sanitize", "pydmd/costs.py:COSTS._xarray_unsanitize", "pydmd/mrcosts.py:mrCOSTS.to_netcdf", "pydmd/mrcosts.py:mrCOSTS.from_netcdf"]}
{"id": "C47", "title": "LANDO: the model about a fixed point", "statement": "After analyze_fixed_point(xbar): f is unchanged, bias is f(xbar), and for every perturbation x, f(xbar+x) = bias + linear x + nonlinear(x). For linear and polynomial kernels, and for custom kernels with a right gradient, linear is the derivative of f at xbar and nonlinear is zero with zero derivative at 0. With the linear kernel nonlinear vanishes and f is linear. The modes and eigs are eigenpairs of linear, in decreasing modulus, all that exceed 1e-16. The analysis succeeds for every kernel that has a gradient.", "quantifier": "all kernels, data, rescalings, fixed points and perturbations", "why_tests_cant": "an identity and a limit over all perturbations of all fitted models", "anchors": ["pydmd/lando.py:LANDO.nonlinear", "pydmd/lando.py:LANDO.f", "pydmd/lando.py:LANDO.analyze_fixed_point", "pydmd/lando.py:LANDO.sparse_dictionary"]}
{"id": "C48", "title": "LANDO dictionary learning, weights and online updates", "statement": "Processing the snapshots in the order used, the dictionary is made of input snapshots, in that order: it takes the first one and then exactly those whose squared feature-space distance from the span of the dictionary so far exceeds dict_tol. sparse_dictionary gives them back as they were before x_rescale. After an offline fit, f = W k(dictionary, .) with weights W that minimise the squared error on all the targets among all weights. After an online fit followed by any sequence of updates and analyses, the weights minimise the error in which each snapshot is replaced by its nearest combination of the dictionary of its time, which for dict_tol 0 is the error on all targets seen so far. For dict_tol 0 a map in the span of the kernels of the inputs is learnt exactly, in both modes. update needs online mode; the accessors need a fit. predict of a discrete model iterates f. Without parameters the kernels are (x.y/n + 1)^3 and exp(-|x-y|^2/n).", "quantifier": "all positive kernels, real data, tolerances, orders and all sequences of fit, update and analyze_fixed_point", "why_tests_cant": "induction over unbounded streams; optimality ranges over all weights", "anchors": ["pydmd/lando.py:LANDOOperator.compute_operator", "pydmd/lando.py:LANDOOperator._update_cholesky"]}
{"id": "C49", "title": "VarProDMD fits the sum of exponentials it reports", "statement": "The real packing of complex eigenvalues is a bijection. The residual given to the optimiser is the misfit of the best amplitudes for the tried eigenvalues, and 0 when there are no more samples than eigenvalues. The Jacobian is the derivative of the residual in the real directions, and in the imaginary directions when the misfit is orthogonal to the slope; the gradient formed from it is that of the cost in every direction, so a stationary point is a stationary point of the cost. After fit, for every optimiser that evaluates its answer last, forecast at the used samples is the best fit with the returned eigenvalues, and data generated by those eigenvalues is continued exactly. Sorting is one permutation of modes, eigenvalues and amplitudes in descending order of the documented quantity and never changes forecast. The used samples are distinct and in range. ssr is the norm of the misfit. The reconstruction is the forecast at the given times; switched-off modes leave the reconstruction and not the forecast.", "quantifier": "all data, times, ranks, compressions and optimisers", "why_tests_cant": "optimiser schedules are not controllable in tests; derivative and optimality claims range over a continuum", "anchors": ["pydmd/varprodmd.py:_OptimizeHelper", "pydmd/varprodmd.py:_compute_dmd_rho", "pydmd/varprodmd.py:_compute_dmd_jac", "pydmd/varprodmd.py:select_best_samples_fast", "pydmd/varprodmd.py:compute_varprodmd_any", "pydmd/varprodmd.py:VarProOperator.compute_operator", "pydmd/varprodmd.py:VarProDMD.fit", "pydmd/varprodmd.py:VarProDMD.forecast", "pydmd/varprodmd.py:VarProDMD.ssr"]}
{"id": "C50", "title": "Optimal DMD is optimal", "statement": "With factorization='svd', predict is multiplication by one matrix whose rank is at most the chosen one, and no matrix of that rank has a smaller Frobenius error on the snapshot pairs; on exactly linear data of small enough rank predict(X) returns the next snapshots. With 'evd' the modes are right, and the stored vectors left, eigenvectors of that same matrix, a mode being zero exactly when its eigenvalue is not above the threshold; predict always raises AttributeError. fitted, dynamics and the activation mask always raise NotImplementedError. Refitting forgets earlier fits; fit(X) is fit(X[:, :-1], X[:, 1:]).", "quantifier": "all snapshot pairs, ranks, competing matrices and states", "why_tests_cant": "minimality over all competing matrices", "anchors": ["pydmd/optdmd.py:OptDMD", "pydmd/optdmd.py:DMDOptOperator", "pydmd/optdmd.py:pinv_diag"]}
{"id": "C51", "title": "Subspace DMD uses four aligned shifts", "statement": "The past and future matrices are built from snapshots 0..T-4, 1..T-3, 2..T-2, 3..T-1, column j of the future block being two steps after column j of the past block; the modes are eigenvectors of the matrix that best maps the first half of an orthonormal basis of the projected future to the second half. For exactly linear data the reported eigenpairs are those of the linear system on the data's span, none is missing, and the snapshots are reconstructed exactly. svd_rank caps the number of pairs.", "quantifier": "all sizes and linear systems", "why_tests_cant": "index and algebraic identity", "anchors": ["pydmd/subspacedmd.py:SubspaceDMD"]}
{"id": "C52", "title": "Finite differences", "statement": "differentiate is exact on affine data and second-order exact on quadratic data in the interior, linear in its input, keeps the shape and commutes with row selection.", "quantifier": "all data and steps", "why_tests_cant": "algebraic identity", "anchors": ["pydmd/utils.py:differentiate"]}
{"id": "C53", "title": "Optimal amplitudes minimise the error over all snapshots", "statement": "With opt=True and exact modes the amplitudes are the unique ones for which the reconstructed data at the training times has the smallest Frobenius distance to the snapshots, for DMD and for CDMD; with projected modes this is false. After fit(X, Y) they are optimal for X with exact modes, and also with projected modes if neither tlsq nor rescaling is used.", "quantifier": "all snapshot matrices, SVDs, eigendecompositions, ranks and competing amplitudes", "why_tests_cant": "minimality over all amplitudes", "anchors": ["pydmd/dmdbase.py:DMDBase._optimal_dmd_matrices", "pydmd/dmdbase.py:DMDBase._compute_amplitudes", "pydmd/cdmd.py:CDMD.fit"]}
{"id": "C54", "title": "BOPDMD.fit_econ is fit on the decomposed data", "statement": "fit_econ(s, V, t) with a given orthonormal projection basis U of rank svd_rank does what fit(U diag(s) V, t) does, outcome and stored results alike, except that no snapshots are kept. Without a basis, without use_proj, with a basis of the wrong width, a t that is not one-dimensional or shapes that do not fit it raises ValueError and leaves no operator. After bagging its forecast raises AttributeError.", "quantifier": "all bases, singular values, right vectors, times and configurations", "why_tests_cant": "equality of two code paths for all data", "anchors": ["pydmd/bopdmd.py:BOPDMD.fit_econ", "pydmd/bopdmd.py:BOPDMD.fit"]}
{"id": "C55", "title": "BOPDMD modes, amplitudes and forecast", "statement": "After a projected fit without bagging the amplitudes are non-negative, each mode is the basis times a vector of unit length (or zero when its share is below 10 eps of the largest), and modes times amplitudes are the least-squares coefficients for the eigenvalues. forecast(t) is the sum over modes of mode * amplitude * exp(eigenvalue t) at every requested time, so data that is such a sum, with the right eigenvalues given, is continued exactly to all times. With bagging forecast returns mean and variance of the num_trials draws and the variance is non-negative. A t that is not one-dimensional raises ValueError, an unfitted model AttributeError.", "quantifier": "all data, times, eigenvalues, random draws", "why_tests_cant": "algebra over all data and times", "anchors": ["pydmd/bopdmd.py:BOPDMDOperator._single_trial_compute_operator", "pydmd/bopdmd.py:BOPDMD.forecast", "pydmd/bopdmd.py:BOPDMD.fit"]}
{"id": "C56", "title": "COSTS windows are independent decompositions", "statement": "Without a global basis each window's modes, eigenvalues and amplitudes are those of a separate BOPDMD of that window's kernel-weighted, centred data, so they do not depend on data outside it; use_last_freq starts each window from the eigenvalues of the one before. With the default global basis, use_last_freq and reset_alpha_init have no effect and every window starts from the initial eigenvalues of the first one; initial eigenvalues given by the user are ignored without initialize_artificially; the default svd_rank is refused; and fit writes the basis into the caller's options, which changes later fits that share them.", "quantifier": "all data, window lengths, steps, options and numerical libraries", "why_tests_cant": "independence is a statement about all pairs of data sets", "anchors": ["pydmd/costs.py:COSTS.fit", "pydmd/costs.py:COSTS._build_proj_basis", "pydmd/costs.py:COSTS._build_initialization"]}
{"id": "C57", "title": "LANDO: repeated analyses, updates and fits", "statement": "An update of an analysed model leaves bias, linear and nonlinear of the new model about the same fixed point. A second analysis of a fitted model shows what a first one about the same point would: refuted for the amplitudes, for what has been read before, for linear without compute_A, and by an IndexError when the numbers of eigenvalues differ; with equal numbers it succeeds with the new modes and eigenvalues. A second fit starts anew: refuted, the former bias, linear operator and modes stay.", "quantifier": "all fitted objects, pairs of fixed points, later snapshots", "why_tests_cant": "it ranges over all histories of calls, and the wrong results raise no error", "anchors": ["pydmd/lando.py:LANDO.analyze_fixed_point", "pydmd/lando.py:LANDO.update", "pydmd/lando.py:LANDO.fit", "pydmd/dmdbase.py:DMDBase.modes"]}
{"id": "C58", "title": "mrCOSTS: levels, global bands and reconstruction", "statement": "A successful fit leaves one COSTS decomposition per level: the first of the data, each later one of the slowest band of the level before, with that level's window, step, rank and number of bands; high-frequency parts, background and the misfits of the levels add up to the data. If every window has a fast eigenvalue and later windows are at least twice as far apart, the global clustering gives every fast eigenvalue of every window the label of its own value, and global_reconstruction is the data minus the misfits of the levels. Refuted: the default transform and the default number of bands can be fitted; refitting after a sweep; clustering after a refit uses the new levels; short parameter lists; levels with one window; a column that is always slow; a window that is always slow keeps out of the global bands. The search for the number of global bands returns the first of the numbers tried whose clustering has the best score, and a later clustering without a number uses it.", "quantifier": "all data, times, numbers of levels, window lengths, steps, ranks, options, clusterings and schedules of BOPDMD", "why_tests_cant": "the tests run one data set with two levels; the claims range over all numbers of levels, window grids and clusterings, and the bad cases give wrong numbers without an error", "anchors": ["pydmd/mrcosts.py:mrCOSTS.fit", "pydmd/mrcosts.py:mrCOSTS.multi_res_interp", "pydmd/mrcosts.py:mrCOSTS.multi_res_deterp", "pydmd/mrcosts.py:mrCOSTS.global_cluster_omega", "pydmd/mrcosts.py:mrCOSTS.global_scale_reconstruction", "pydmd/mrcosts.py:mrCOSTS.get_background", "pydmd/mrcosts.py:mrCOSTS.global_reconstruction"]}
{"id": "C59", "title": "Eigenvalue plots show every eigenvalue", "statement": "plot_eigs draws all the eigenvalues inside its axis limits: without narrow_view the axes are the square [-L, L] where L is the least integer not below any modulus; with narrow_view every eigenvalue has at least 0.05 to every side, the longer side is as short as that allows, both are when their lengths differ by less than the factor 8, and they never differ by more. plot_eigs_mrdmd of a fitted MrDMD draws one labelled series per level, together all the eigenvalues, or the requested level or node only, inside the limits. Nothing to draw raises ValueError.", "quantifier": "all non-empty lists of eigenvalues, all fitted MrDMD objects, levels and nodes", "why_tests_cant": "limits must hold for any number and position of eigenvalues and any tree", "anchors": ["pydmd/plotter.py:plot_eigs", "pydmd/plotter.py:plot_eigs_mrdmd", "pydmd/plotter.py:_enforce_ratio", "pydmd/plotter.py:_plot_limits"]}
{"id": "C60", "title": "2D plots put every value at its place", "statement": "plot_modes_2D and plot_snapshots_2D make one figure per requested column, in order, saved under distinct names. With order='F' the value with indexes (i, j) of the snapshot is drawn at x = i, y = j; with order='C' and axes given for the second and first index it is drawn at (x[j], y[i]); with order='C' and the default axes this holds for square snapshots, and in general the point (q, p) shows the sample number p*a+q of an a x b snapshot. Every sample is drawn and nothing else. A column of another size, an unknown shape or a shape that is not 2D raises ValueError, a missing column IndexError.", "quantifier": "all snapshot shapes, columns, axes, orders and indexes", "why_tests_cant": "an index identity over all shapes; square test data hides transpositions", "anchors": ["pydmd/plotter.py:plot_modes_2D", "pydmd/plotter.py:plot_snapshots_2D"]}
{"id": "C61", "title": "The summary plot shows the same mode everywhere", "statement": "plot_summary sorts eigenvalues, modes and dynamics together by decreasing magnitude of the amplitude: number k is the mode of rank k in its title, its column, its dynamics, its discrete-time and its continuous-time marker, and its titles have the colour of its marker. Every eigenvalue has a marker. With distinct eigenvalues the highlighted markers are exactly those of the shown modes and their complex conjugates, and two of them share a colour exactly when they are the same or conjugate. The discrete-time eigenvalue is the exponential of the continuous-time one times the step. The square of the marker size is proportional to the amplitude. The per cents are shares of the sum of the singular values. With delays the mode is its mean over the delays. The limits of the dynamics, when set, contain the curve. It draws for every fitted object whose modes fit the shape and whose dynamics fit the times, and raises ValueError for HAVOK objects, unfitted objects, more than three or missing indexes and too few singular values. The per cents are not shares of variance although the axis says so; after fit_econ the default shape raises TypeError, and after dmd_time is changed to another number of steps there is no summary.", "quantifier": "all fitted objects (eigenvalues, modes, amplitudes, dynamics, times, delays) and all keyword arguments, for every argsort that sorts", "why_tests_cant": "the consistency of sorting, conversion and colouring has to hold for every spectrum; a test looks at one figure", "anchors": ["pydmd/plotter.py:plot_summary"]}
{"id": "C62", "title": "BOP-DMD uncertainty plots show each mode and eigenvalue with its own deviation", "statement": "plot_mode_uq draws, for every mode asked for, the real part of the mode and directly below it the standard deviation of the same mode; numbers in titles count the modes by decreasing magnitude of the amplitude; with d delays both are averages over the delays; in 2-D the pixel in row p and column q is entry p*w+q (C order) or p+q*h (Fortran order); subplots do not collide, are in reading order and inside the grid. When all modes are asked for, each is named in exactly one title. With plot_conjugate_pairs=False a title with two numbers names conjugate eigenvalues if the spectrum is made of conjugate pairs of different amplitudes and at most one real eigenvalue with the largest amplitude; in general it does not (refuted). plot_eig_uq draws circles of one and two standard deviations around every eigenvalue, with the same axes for the true eigenvalues. Both raise ValueError before fit and when no bagging was done.", "quantifier": "all fitted objects, argument combinations and argsort results that sort", "why_tests_cant": "tests only check that the plots run; alignment is for all ranks, delays, grids and orders", "anchors": ["pydmd/bopdmd.py:BOPDMD.plot_mode_uq", "pydmd/bopdmd.py:BOPDMD.plot_eig_uq"]}
{"id": "C63", "title": "BOPDMD takes the variable projection options it documents, warns outside the recommended ranges, and prints them", "statement": "fit accepts varpro_opts_dict exactly when all its keys are documented options and all its values are ints, floats or bools, and raises TypeError otherwise; each option has the value given for it, else its documented default; there is a warning for an option exactly when its value is below the lower or above the upper end of its recommended range (nan gives none), naming option, value and bound, and never two for one option; the defaults give none. With verbose on, the progress of the first five bagging trials is displayed and of no other; with it off, of none. print_varpro_opts shows name and value of the nine options in order, and raises ValueError before the fit. The options are as chosen after the fit, except verbose: refuted, five or more trials turn a chosen True into False.", "quantifier": "all dictionaries with distinct string keys, all values including infinities and nan, any number of trials", "why_tests_cant": "tests try a few option values; the ranges and the flag have to hold for all values and numbers of trials", "anchors": ["pydmd/bopdmd.py:BOPDMDOperator.__init__", "pydmd/bopdmd.py:BOPDMDOperator._varpro_opts_warn", "pydmd/bopdmd.py:BOPDMDOperator.compute_operator", "pydmd/bopdmd.py:BOPDMD.print_varpro_opts"]}
{"id": "C64", "title": "Kernel arguments of LANDO and EDMD", "statement": "LANDO accepts exactly: metric linear, poly or rbf; kernel_params None or a dictionary that scikit-learn accepts for it; custom functions that return arrays of the documented shapes for samples with five features, a gradient only together with a kernel. It warns exactly if a kernel comes without a gradient. EDMD accepts exactly svd_rank other than 0 and a metric with parameters that scikit-learn accepts. Refusals are ValueErrors, or TypeErrors if kernel_params is no dictionary or a custom object is no function. The gradient of a built-in kernel uses the constants of that kernel. Refuted: a custom kernel makes the metric irrelevant; a custom kernel written for the number of features of the data is accepted; gamma None, the default of scikit-learn, works in the fixed point analysis.", "quantifier": "all metrics, parameters, custom objects and behaviours of scikit-learn on the dummy data", "why_tests_cant": "the tests try a handful of bad arguments; the claim is an exact characterisation over all of them", "anchors": ["pydmd/lando.py:LANDO.__init__", "pydmd/lando.py:LANDO._test_kernel_inputs", "pydmd/lando.py:LANDO._test_kernel_functions", "pydmd/lando.py:LANDO.kernel_gradient", "pydmd/edmd.py:EDMD.__init__", "pydmd/edmd.py:EDMD._test_kernel_inputs"]}
{"id": "C65", "title": "The picture of HAVOK.plot_summary", "statement": "All curves over time show the first num_plot values, by default as many as there are embeddings, of the data, the first linear embedding and the chosen forcing term against the first num_plot times; the attractor and the reconstruction show the chosen columns over the same range. The red pieces belong to events: ranges that start and end at an active index, contain each active index exactly once, lie more than min_jump_dist apart, and (distance 1) contain active indexes only. True switches given in order are drawn at exactly the times of those below num_plot. Before fit the call raises ValueError. Refuted: every active time is drawn red (the last one of an event never is); a picture is drawn if no forcing value is active (IndexError) or num_plot exceeds the number of embeddings (IndexError); true_switch_indices may be any iterable (a list raises TypeError) in any order.", "quantifier": "all fitted models, thresholds, distances, numbers of points, indexes and switch arrays", "why_tests_cant": "the tests only check that the call returns or raises; what is drawn for all signals is not compared", "anchors": ["pydmd/havok.py:HAVOK.plot_summary", "pydmd/havok.py:HAVOK._get_index_slices"]}
{"id": "C66", "title": "The plots and periods of COSTS", "statement": "plot_time_series draws, for the chosen point, data and reconstruction without the time mean of the data, the low band without that mean and the other bands as they are; high and low frequencies add up to the reconstruction, and the two curves of the second panel differ by the error. plot_scale_separation and plot_reconstructions draw the data, the bands (or the lowest and the sum of the others) and on demand data minus reconstruction; without options the limits are symmetric, contain all values and are reached; options given are kept. plot_error draws the percentage by which the reconstruction exceeds the data. plot_omega_time_series draws each eigenvalue in the series of its band and in no other. periods returns, in order, 2 pi over the absolute frequency of each entry outside the lowest band; ValueError before fit, TypeError before clustering. Refuted: the curve called residual in plot_time_series is the error (it is the error minus the mean); plot_reconstructions works with one band (ValueError); options of one plot can be used for another one without effect on its limits. The histogram counts every eigenvalue once, transformed as in the time series, with one line per centroid in the colour of its band in the time series; bands have different colours while there are enough, then they repeat.", "quantifier": "all data, reconstructions, numbers of bands, points and times, indexes and option dictionaries", "why_tests_cant": "the tests check that figures are made; the numbers drawn for all data are not compared", "anchors": ["pydmd/costs.py:COSTS.plot_time_series", "pydmd/costs.py:COSTS.plot_scale_separation", "pydmd/costs.py:COSTS.plot_reconstructions", "pydmd/costs.py:COSTS.plot_error", "pydmd/costs.py:COSTS.periods", "pydmd/costs.py:COSTS.plot_omega_time_series", "pydmd/costs.py:COSTS.plot_omega_histogram"]}
{"id": "C67", "title": "The plots of one level of mrCOSTS", "statement": "Without data, a plot of a level after the first takes the lowest band of the level before, which with the default options is exactly the data that level was fitted on; data given is used as it is if it has the shape seen by fit, else ValueError. Drawn are that input, the bands of the level, the lowest band and the rest (which add up to its reconstruction), the curves of one point, and the error in percent of that input. Level 0 without data raises ValueError, a level beyond the last IndexError; with data a negative level counts from the end. Refuted: the input drawn is the input fitted if the fit left the means out; a negative level works without data (UnboundLocalError).", "quantifier": "all fitted levels, level numbers, shapes, data and options", "why_tests_cant": "the tests plot one fit with default options and check that no error is raised", "anchors": ["pydmd/mrcosts.py:mrCOSTS._plot_helper_data_check", "pydmd/mrcosts.py:mrCOSTS.plot_local_scale_separation", "pydmd/mrcosts.py:mrCOSTS.plot_local_reconstructions", "pydmd/mrcosts.py:mrCOSTS.plot_local_time_series", "pydmd/mrcosts.py:mrCOSTS.fit", "pydmd/mrcosts.py:mrCOSTS.plot_local_error"]}
{"id": "C68", "title": "Frequencies and growth rates of the modes", "statement": "For every fitted discrete model with a complex array of non-zero eigenvalues, the frequency f of an eigenvalue gives the phase 2 pi f k dt of its mode after any number k of steps, and lies in (-1/(2 dt), 1/(2 dt)]; a mode of frequency f0 gets f0 exactly if f0 is in that band. A real array with positive eigenvalues gives 0, which is right. The frequency and growth rate of VarProDMD give exp(eigenvalue t) at every time. Right after fit the time step is 1 for all models but BOPDMD and OptDMD, so frequencies count turns per snapshot. Before fit TypeError or AttributeError. Refuted: a negative eigenvalue in a real array gets its frequency (it gets 0); growth_rate of the discrete models is the growth rate (never for a positive real eigenvalue; positive for decaying modes); both work for BOPDMD and OptDMD (RuntimeError).", "quantifier": "all eigenvalues, time steps, numbers of steps, times and signal frequencies", "why_tests_cant": "the tests compare the attribute with the same formula on one data set; the meaning over all steps, the band and the real arrays are not tested", "anchors": ["pydmd/dmdbase.py:DMDBase.frequency", "pydmd/dmdbase.py:DMDBase.growth_rate", "pydmd/varprodmd.py:VarProDMD.frequency", "pydmd/varprodmd.py:VarProDMD.growth_rate", "pydmd/dmdoperator.py:DMDOperator._compute_eigenquantities"]}
