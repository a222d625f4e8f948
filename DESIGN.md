# Formal model of ssspy: design

The source is `/repo` (tky823/ssspy, pinned commit).  It is read as text only; nothing in it was executed.
The model and the proofs are Coq 8.16.1 files in `rocq/theories`; `properties.jsonl` states the properties,
`MANIFEST.json` maps them to theorems, `seeded/LOG.jsonl` records the wrong programs the theorems were tested against.

## 1. Modelling conventions

* Every modelled Python function is a total Gallina function.  A doc comment cites file and lines; it covers all
  definitions up to the next comment.  Definitions without a counterpart in the code (index helpers, list
  operations) say what they stand for.
* Exceptions are values (`None`, `inr err`, `Raise e`).  An operation whose NumPy result would be nan or inf (division by
  zero, logarithm of zero) also gives `None`, so a theorem about `Some` results never speaks of such values, and the
  `*_defined` theorems say when the result exists.
* Floating point numbers are exact real or complex numbers.  Rounding, overflow and signed zeros are outside the
  model; nan appears only where the code's control flow depends on it (the permutation solvers).
* Arrays with batch axes (bins, frames, blocks) are functions from an index type to a matrix or a scalar;
  broadcasting is pointwise.  All sizes are universally quantified.
* `numpy.linalg.inv/solve` are exact (`invmx`, failing on singular input).  `eigh`, `cholesky`, `svd`, the
  spectral norm and `argsort` are *parameters* with a contract (their documented defining equations); nothing is assumed about
  which decomposition is returned, and `eigh_contract_sat`, `chol_contract_sat`, `svd_contract_sat`, `snorm_contract_sat`, `argsort_exP` prove
  that each contract can be met.  Where raising matters (C86, C87), Cholesky is moreover assumed to raise on Hermitian matrices that are not positive
  definite (`chol_strict`, met by `chol_strict_sat`).
* User code (contrast functions, callbacks, masks, proximal operators, flooring functions) is a universally
  quantified argument.  Random initial values are arbitrary values.
* Object state (attributes, call histories, aliasing) has its own model, `Objects.v`, in which array contents are
  opaque: it fixes which attribute refers to which array and which arrays are written.

## 2. Layers

* **Discrete layer** (no axioms, or functional extensionality only): iteration protocol, pair selectors, permutation bookkeeping, WAV codec,
  option handling, object model.
* **Real analysis layer** (stdlib `Reals`): softmax, logsumexp, flooring, proximal operators, cubic and secular equations,
  majorisation lemmas.
* **Linear algebra layer** (mathcomp; `RStruct.v` makes stdlib's `R` a real closed field, complex numbers are `R[i]`): everything with
  matrices.  `MxC.v`, `CxR.v`, `SvdExist.v`, `EighProofs.v` are general lemmas (spectral theorem, existence of SVD, positive
  definite matrices).

`X.v` holds a model, `XProofs.v` lemmas about it, `Prop_X.v` the property theorems with examples that meet their
hypotheses and `Print Assumptions`.

## 3. Properties

Every property is formalised; none is "not applicable".  "Model" lists the model files the theorems are about
(directly imported by the file of the theorem); the doc comments in those files give the lines of `/repo`.
For each theorem the comment found above it is repeated; theorems without one belong to the preceding comment in the file.

### C01 — Iteration protocol: number and order of updates, losses and callbacks (proved)

Source: `ssspy/bss/base.py: IterativeMethodBase.__init__, IterativeMethodBase.__call__`.  Model: `Iter.v`.  Theorems in `Prop_Iter.v`.

All executions of the loop, arbitrary user code.

* `C01_counts`: C01, counts: n_iter updates, n_iter (+1) losses, each callback n_iter (+1) times, whatever the previous history of the object.
* `C01_protocol`: C01. On a freshly constructed object a call that does not raise performs exactly the documented schedule of actions: the trace of actions is the schedule, every event is what the user code computes on the state reached at that moment ([chain]), and the loss ...
* cases that meet the hypotheses: `C01_nonvacuous`

### C02 — Split runs equal one long run (proved)

Source: `ssspy/bss/base.py: IterativeMethodBase.__call__`.  Model: `Iter.v`.  Theorems in `Prop_Iter.v`.

* `C02_split_run`: C02: a run of a+b iterations is a run of a iterations followed by a run of b iterations with initial_call=False (states, losses, trace, exceptions).

### C03 — A failure inside an iteration leaves exactly the progress made before it (proved)

Source: `ssspy/bss/base.py: IterativeMethodBase.__call__`.  Model: `Iter.v`.  Theorems in `Prop_Iter.v`.

* `C03_exception`: C03: if the call raises, what was executed is a proper prefix of the schedule, the exception is the one raised by the very next scheduled action in the state reached, nothing after it was executed, and the loss attribute holds exactly the previously recorded ...
* `C03_object_stays_usable`: the invariant used above holds initially and is kept by every call, failing or not
* cases that meet the hypotheses: `C03_nonvacuous`

### C04 — Re-using a separation object continues from the retained demixing filter (proved)

Source: `ssspy/bss/iva.py: IVABase._reset, AuxIVA._reset, AuxIVA.__call__`, `ssspy/bss/ilrma.py: ILRMABase._reset, GaussILRMA._reset`, `ssspy/bss/fdica.py: AuxFDICA._reset`.  Model: `Objects.v`.  Theorems in `Prop_Objects.v`.

Heap model with abstract array contents. Fails for ISS/ISS1/ISS2/IPA (C04_dropped, C04_dropped_refuted), with scale restoration (C04_scale_refuted) and for the loss list of the IPSDTA classes (C04_ipsdta_refuted).

* `C04_continue`: Calling the object for [a] iterations and calling it again on the same mixture for [b] iterations with initial_call=False is the same as one call with [a + b] iterations: the same exception if any, the same loss list, the same contents of every attribute ...
* `C04_dropped`: After a successful call every further call that does not pass [demix_filter] raises TypeError, whatever the mixture and the number of iterations (0 included).
* `C04_dropped_refuted`: the property as stated fails: re-using the object is not well defined
* `C04_fresh`: A call that passes the initial value of all the parameters (in any order, possibly with others) gives the same output, the same exception and the same new losses on every object, whatever was done with it before.
* `C04_ipsdta_refuted`: GaussIPSDTA and TIPSDTA take no [initial_call]: it is swallowed by the keyword arguments, the initial loss is recorded again and the loss list of two calls is longer than that of one (ipsdta.py:96-115).
* `C04_restart`: The filter left by one call is what the next one starts from, also on another mixture: with no iteration it is still there afterwards.
* `C04_scale_refuted`: With scale restoration (the default) the retained filter is the rescaled one: two calls are not one long call.
* cases that meet the hypotheses: `C04_continue_instance`, `C04_dropped_instance`, `C04_fresh_instance`, `C04_restart_instance`

### C05 — Caller-owned arrays are never modified by a separation call (proved)

Source: `ssspy/bss/iva.py: AuxIVA.__call__, IVABase._reset, AuxIVA.update_once_ip2`, `ssspy/bss/_update_spatial_model.py: update_by_ip1, update_by_ip2`.  Model: `Objects.v`.  Theorems in `Prop_Objects.v`.

Heap model with abstract array contents. Fails for FastGaussMNMF's spatial (C05_retained_refuted) and for references kept by callbacks under in-place updates (C05_callback_refuted).

* `C05_callback`
* `C05_callback_refuted`: The updates in place do not: the filter a callback stored after the first iteration is overwritten by the second.
* `C05_history`
* `C05_not_retained`: After a successful call no attribute a method computes with refers to an array of the caller, so that changing those arrays later does not change the object; FastGaussMNMF is the exception.
* `C05_result`: the returned array is a new one
* `C05_retained_refuted`
* `C05_unmodified`: No array that exists when a call starts is changed by it, whether the call succeeds or raises: neither the mixture, nor the arrays given as keyword arguments (aliased or not), nor the arrays returned by earlier calls.
* `C05_valid`: the object stays valid
* cases that meet the hypotheses: `C05_callback_instance`, `C05_history_instance`, `C05_instance`, `C05_instance_written`, `C05_not_retained_instance`, `C05_result_instance`

### C06 — Sequential pair selector yields valid, distinct, covering pairs (proved)

Source: `ssspy/utils/select_pair.py: sequential_pair_selector`.  Model: `PairSelector.v`.  Theorems in `Prop_PairSelector.v`.

One-source case shown to yield the pair (0,0) (C06_one_source_refuted).

* `C06_count`
* `C06_default_covers`: C06, default arguments: n_sources pairs and every source takes part.
* `C06_one_source_refuted`: A single source is accepted by the code but paired with itself.
* `C06_sequential`: C06: for at least two sources and a positive step the generator never raises, yields [ceil(stop/step)] pairs (see [C06_count]), every pair consists of two different valid source indices, is ordered when sort=True, does not depend on sort as an unordered pair, ...
* cases that meet the hypotheses: `C06_nonvacuous`

### C07 — Sequential pair selector follows its documented step example (proved)

Source: `ssspy/utils/select_pair.py: sequential_pair_selector (docstring and body)`.  Model: `PairSelector.v`.  Theorems in `Prop_PairSelector.v`.

Refuted: the documented example differs from the code.

* `C07_documented_step_refuted`
* `C07_step2_count`: ... and in general, with step=2, every even n_sources gives half as many pairs as the documented n_sources.

### C08 — Combination pair selector yields every unordered pair exactly once (proved)

Source: `ssspy/utils/select_pair.py: combination_pair_selector`.  Model: `PairSelector.v`.  Theorems in `Prop_PairSelector.v`.

* `C08_combination`: C08
* cases that meet the hypotheses: `C08_nonvacuous`

### C09 — Correlation-based permutation alignment only permutes sources within each frequency bin (proved)

Source: `ssspy/algorithm/permutation_alignment.py: correlation_based_permutation_solver`.  Model: `NpLin.v`, `PermAlign.v`.  Theorems in `Prop_PermAlign.v`, `Prop_PermScore.v`.

Heap model of the solver: same rearrangement for the sequence and all arguments, other arrays untouched, failures before any modification. With overwrite=True an array given twice is permuted twice (C09_alias_refuted).

* `C09_alias_refuted`
* `C09_consistent`: C09: whenever the solver returns, the main sequence and every extra argument are rearranged by one and the same family of permutations, one for each bin, whatever the data and whatever [argsort] returns; all other arrays of the program are untouched. With ...
* `C09_rejects`: and otherwise fails before anything is modified.
* `C09_rejects_ndim`
* `C09_total`: C09: the solver returns whenever there is a bin and the shapes agree,

### C10 — Correlation-based alignment picks the best permutation greedily (proved)

Source: `ssspy/algorithm/permutation_alignment.py: correlation_based_permutation_solver`.  Model: `NpLin.v`, `PermAlign.v`.  Theorems in `Prop_PermAlign.v`.

Order of bins, greedy first-best permutations, for norms nonzero after flooring and an argsort meeting numpy's contract (argsort_exP shows one).

* `C10_greedy`: C10: there are an order of the bins, by increasing correlation between the sources and meeting each bin exactly once, and permutations of the sources, such that the first bin is kept as it is, the permutation of every later bin is the best against the sum of ...
* cases that meet the hypotheses: `C10_instance`

### C11 — Score-based permutation alignment only permutes sources within each bin, consistently (proved)

Source: `ssspy/algorithm/permutation_alignment.py: score_based_permutation_solver, _parallel_sort`.  Model: `NpLin.v`, `PermAlign.v`.  Theorems in `Prop_PermAlign.v`, `Prop_PermLocal.v`, `Prop_PermScore.v`.

Every number of global and local iterations; the choice of one global iteration is shown to be the first best for real data. Extra arguments without trailing dimension are excluded.

* `C11_choice`: C11: with one global iteration and real data the permutation of each bin is the one with the largest score, and lexicographically first among those. Hypotheses: there are frames, every row has a nonzero standard deviation, and the floored deviations of the ...
* `C11_consistent`: C11: whenever the solver returns, the returned sequence and every extra argument are the given ones rearranged by one and the same family of permutations, for every number of iterations. Arrays with no trailing dimension are excluded: for them the code calls ...
* `C11_local_choice`: One step of a local iteration permutes the rows of bin [b] only, in the sequence, its normalised version and every extra argument alike, by the permutation with the largest score, lexicographically first among those.
* `C11_local_only`: C11: local iterations without a global one fail.
* `C11_rejects`
* `C11_total`: C11: with at least one global iteration (the default) and agreeing shapes it returns.
* cases that meet the hypotheses: `C11_instance`, `C11_local_instance`

### C12 — overwrite flag of the permutation solvers (proved)

Source: `ssspy/algorithm/permutation_alignment.py: correlation_based_permutation_solver, score_based_permutation_solver`.  Model: `NpLin.v`, `PermAlign.v`.  Theorems in `Prop_PermAlign.v`, `Prop_PermScore.v`.

Holds for the correlation-based solver and for overwrite=False; refuted for the sequence of the score-based solver with overwrite=True (C12_score_overwrite_refuted, C12_score_sequence_kept).

* `C12_corr_no_overwrite`: C12, correlation-based solver
* `C12_corr_overwrite`: with [overwrite=True] the given arrays themselves are returned
* `C12_score_no_overwrite`: with [overwrite=False] no existing array is modified and the results are new arrays
* `C12_score_overwrite_args`: with [overwrite=True] the extra arguments hold the returned values,
* `C12_score_overwrite_refuted`: C12 fails for the score-based solver: with [overwrite=True] the given sequence does not hold the returned values.
* `C12_score_sequence_kept`: but the main sequence does not: with at least one global iteration the result is a new array and the given one keeps its old contents.

### C13 — WAV write then read returns the written samples (proved)

Source: `ssspy/io/__init__.py: wavread, wavwrite, _write_fmt_chunk, _write_data_chunk, _read_fmt_chunk, _read_data_chunk`.  Model: `Wav.v`.  Theorems in `Prop_Wav.v`.

Samples are exact integers/rationals; int16/int8/float input.

* `C13_roundtrip_float`: C13, float input in [-1, 1): each sample comes back as z/32768 where z is within the int16 range and |z/32768 - x| < 1/32768 (exact on multiples of 1/32768).
* `C13_roundtrip_int16`: C13, 16-bit integers: for every rectangular int16 array with one or two channels, every writer layout flag and every reader flags, reading the written file returns the same sample rate and every sample divided by 2^15 in the layout asked for.
* `C13_roundtrip_int8`: C13, 8-bit integers.
* `C13_same_layout`: Corollary: same layout on both sides gives back the very array.
* cases that meet the hypotheses: `C13_nonvacuous`

### C14 — WAV header written is consistent (proved)

Source: `ssspy/io/__init__.py: wavwrite, _write_fmt_chunk, _write_data_chunk`.  Model: `Wav.v`.  Theorems in `Prop_Wav.v`.

Stated for int16 input.

* `C14_header`: C14: consistency of the written header. The positions are those of the RIFF format.

### C15 — Partial WAV reads return exactly the requested slice (proved)

Source: `ssspy/io/__init__.py: wavread, _read_data_chunk`.  Model: `Wav.v`.  Theorems in `Prop_Wav.v`.

Negative frame_offset is not rejected by the code (C15_negative_offset_refuted).

* `C15_negative_count_rejected`
* `C15_negative_offset_refuted`: A negative frame offset is not rejected: header bytes are decoded as audio.
* `C15_partial_read`: C15: for every file whatsoever that is fully readable and whose block alignment is a multiple of the channel count, every partial read with non-negative offset and count returns exactly the requested frames in the requested layout, or a ValueError when the ...
* `C15_read_rest`
* cases that meet the hypotheses: `C15_nonvacuous`

### C16 — WAV reader accepts only PCM files with a consistent header (proved)

Source: `ssspy/io/__init__.py: wavread, _read_fmt_chunk`.  Model: `Wav.v`.  Theorems in `Prop_Wav.v`.

block_align is not validated by the code (C16_block_align_refuted).

* `C16_accepts_only_consistent`: C16: whatever the byte string and the request, if wavread returns data the header is a consistent PCM header (field positions of the format), the returned rate is the header's, and all samples are in [-1, 1).
* `C16_block_align_refuted`

### C17 — softmax returns a probability vector and is shift invariant (proved)

Source: `ssspy/special/softmax.py: softmax`.  Model: `NpLin.v`, `Special.v`.  Theorems in `Prop_Special.v`.

Exact real arithmetic on one 1-D slice.

* `C17_distribution`
* `C17_empty`
* `C17_formula`: C17
* `C17_no_overflow`: No overflow: an exponential that is only right for non-positive arguments (and may overflow for all others) is enough, for inputs of any magnitude.
* `C17_order`: the order of the entries is preserved
* `C17_shift`
* cases that meet the hypotheses: `C17_instance`, `C17_no_overflow_instance`

### C18 — logsumexp equals the logarithm of the sum of exponentials (proved)

Source: `ssspy/special/logsumexp.py: logsumexp`.  Model: `NpLin.v`, `Special.v`.  Theorems in `Prop_Special.v`.

Exact real arithmetic on one 1-D slice.

* `C18_bounds`
* `C18_empty`
* `C18_formula`
* `C18_log_softmax`: both functions agree: log softmax(x) = x - logsumexp(x)
* `C18_no_overflow`
* `C18_shift`
* cases that meet the hypotheses: `C18_instance`

### C19 — Flooring functions bound their output from below (proved)

Source: `ssspy/special/flooring.py: identity, max_flooring, add_flooring`.  Model: `NpLin.v`, `Special.v`.  Theorems in `Prop_Special.v`.

Exact real arithmetic.

* `C19_add`
* `C19_identity`
* `C19_max_fixed`: flooring is active exactly below the floor
* `C19_max_idempotent`
* `C19_max_least`: C19
* `C19_max_monotone`
* cases that meet the hypotheses: `C19_instance`

### C20 — Choice of flooring function per update (proved)

Source: `ssspy/utils/flooring.py: choose_flooring_fn`.  Model: `NpLin.v`, `Special.v`.  Theorems in `Prop_Special.v`.

The documented choice is proved; flooring_fn=None combined with a method is refuted (C20_none_refuted): it raises AssertionError instead of using the identity.

* `C20_documented_choice`
* `C20_none_always_fails`
* `C20_none_refuted`: every call from an update method passes [method=self]; None then raises
* cases that meet the hypotheses: `C20_instance`

### C21 — inv2 inverts every invertible 2x2 matrix (proved)

Source: `ssspy/linalg/inv.py: inv2`.  Model: `Eigh.v`, `NpLin.v`.  Theorems in `Prop_Linalg.v`.

Exact complex arithmetic.

* `C21_inv2`: C21: inv2 returns the two-sided inverse of every matrix with non-zero determinant, and a non-finite result otherwise.
* cases that meet the hypotheses: `C21_instance`

### C22 — Generalised Hermitian eigen-decomposition solves its defining equation (proved)

Source: `ssspy/linalg/eigh.py: eigh, eigh2, _eigh`.  Model: `Eigh.v`, `NpLin.v`.  Theorems in `Prop_Linalg.v`.

np.linalg.eigh and cholesky are parameters constrained by contracts proved satisfiable (eigh_contract_sat, chol_contract_sat).

* `C22_eigh2`: C22: eigh2 is eigh on 2x2 matrices
* `C22_other_types`
* `C22_type1`: C22: the generalised eigenproblem, for any eigen-solver and Cholesky routine meeting their contracts.
* `C22_type2`
* `C22_type3`
* cases that meet the hypotheses: `C22_instance`

### C23 — Matrix square root and inverse square root (proved)

Source: `ssspy/linalg/sqrtm.py: sqrtmh, invsqrtmh`.  Model: `Eigh.v`, `NpLin.v`.  Theorems in `Prop_Linalg.v`.

Same contracts as C22.

* `C23_invsqrtmh`: C23: inverse square root without flooring
* `C23_invsqrtmh_floored`: C23: with max_flooring the result exists for every PSD matrix (singular ones included), is positive definite, and is bounded by 1/eps
* `C23_sqrtmh`: C23: square root
* cases that meet the hypotheses: `C23_instance`

### C24 — Geometric mean of positive definite matrices (proved)

Source: `ssspy/linalg/mean.py: gmeanmh`.  Model: `Eigh.v`, `NpLin.v`.  Theorems in `Prop_Linalg.v`.

Same contracts as C22; uniqueness of the mean also proved.

* `C24_other_types`
* `C24_type1`: type 1: the geometric mean A # B
* `C24_type1_symmetric`: type 1 is symmetric in A and B
* `C24_type2`: type 2: the geometric mean of A^{-1} and B
* `C24_type3`: type 3: the geometric mean of A and B^{-1}
* cases that meet the hypotheses: `C24_instance`

### C25 — to_psd returns a Hermitian matrix with floored spectrum and leaves well-conditioned input unchanged (proved)

Source: `ssspy/special/psd.py: to_psd`.  Model: `Eigh.v`, `NpLin.v`.  Theorems in `Prop_Linalg.v`.

Same contracts as C22.

* `C25_hermitian`: the result is Hermitian whatever the solver returns, and [X] is only used through its Hermitian part
* `C25_identity`: no change when [X] is Hermitian and all of its eigenvalues are at least [eps], i.e. [x^H X x >= eps |x|^2]
* `C25_lower_bound`
* `C25_spectrum`: the floored matrix is the result of replacing each eigenvalue by its floor: every eigenvector of the Hermitian part remains one
* cases that meet the hypotheses: `C25_instance`

### C26 — cbrt returns a cube root and the real one for real input (proved)

Source: `ssspy/linalg/cubic.py: cbrt`.  Model: `Cubic.v`.  Theorems in `Prop_Cubic.v`.

Exact arithmetic, no signed zeros.

* `C26_agree`: the complex branch extends the real one on positive reals, but not on negative ones
* `C26_complex`: C26
* `C26_negative`: negative reals given with a complex dtype: the principal root, not the real one
* `C26_principal`: the principal root: argument in (-pi/3, pi/3]
* `C26_real`
* cases that meet the hypotheses: `C26_instance`

### C27 — solve_cubic returns all three roots (proved)

Source: `ssspy/linalg/polynomial.py: solve_cubic, _find_cubic_roots`.  Model: `Cubic.v`.  Theorems in `Prop_Cubic.v`.

Elementwise model; all=False is the first component of the returned triple.

* `C27_complete`: nothing is missed: every solution is among the three returned values
* `C27_general`
* `C27_monic`
* `C27_rejects`
* cases that meet the hypotheses: `C27_instance`

### C28 — Largest-root finder of the LQPQM cubic (proved)

Source: `ssspy/linalg/lqpqm.py: _find_largest_root, solve_equation`.  Model: `Cubic.v`.  Theorems in `Prop_Cubic.v`.

Proved for the LQPQM family and for every cubic outside one configuration; the documented claim for all real coefficients is refuted (C28_refuted).

* `C28_general`: general real coefficients, outside the configuration where the code goes wrong
* `C28_lqpqm`: C28
* `C28_refuted`: the documented behaviour (largest real root for all real coefficients) fails
* cases that meet the hypotheses: `C28_instance`

### C29 — Secular equation solver of LQPQM (proved)

Source: `ssspy/linalg/lqpqm.py: solve_equation, _fn, _d_fn`.  Model: `Cubic.v`, `Lqpqm.v`, `NpLin.v`.  Theorems in `Prop_Lqpqm.v`.

normalization=False: converged value is the root above all poles (exact, or within eps with the default flooring), monotone iterates, guaranteed convergence. normalization=True (used by lqpqm2): refuted unless the largest eigenvalue is 1 (C29_normalized_refuted, C29_normalized_never). The UserWarning is the boolean result.

* `C29_exact`: C29, identity flooring, [normalization=False]
* `C29_floored`: C29, default flooring, [normalization=False]
* `C29_limit`: without flooring the values tend to the roots as the iteration limit grows
* `C29_normalized`: C29, [normalization=True] as called by [lqpqm2]: the value returned on convergence solves the equation with the factor (max phi)^2 in front of lambda - z
* `C29_normalized_never`: ... and it never is when the largest eigenvalue is not 1
* `C29_normalized_refuted`
* `C29_normalized_unit`: hence it is the documented root when the largest eigenvalue is 1 (IPA with two sources) ...
* `C29_terminates`: the warning disappears when enough iterations are allowed
* `C29_zero_iterations`: [max_iter=0] is not usable: the code reads an unbound loop variable
* cases that meet the hypotheses: `C29_instance`

### C30 — Projection back is invariant to the scale of each separated source (proved)

Source: `ssspy/algorithm/projection_back.py: projection_back`.  Model: `Eigh.v`, `NpLin.v`, `Scale.v`.  Theorems in `Prop_Scale.v`.

Filter form (single and all reference channels) and data form, arbitrary non-zero complex gains.

* `C30_data`
* `C30_filter`: C30
* `C30_filter_all`
* cases that meet the hypotheses: `C30_instance`

### C31 — Projection back is idempotent and preserves the reference channel (proved)

Source: `ssspy/algorithm/projection_back.py: projection_back`, `ssspy/bss/iva.py: IVABase.apply_projection_back`.  Model: `Eigh.v`, `NpLin.v`, `Scale.v`.  Theorems in `Prop_Scale.v`.

Sum, mixing row, idempotence, and exactly when the second application is defined.

* `C31_data_sum`
* `C31_idempotent`
* `C31_mixing_row`
* `C31_second_defined`: the second application fails exactly when some source does not reach the reference channel
* `C31_sum`: C31
* cases that meet the hypotheses: `C31_instance`, `C31_second_instance`

### C32 — Filter form and data form of projection back agree (proved)

Source: `ssspy/algorithm/projection_back.py: projection_back`.  Model: `Eigh.v`, `NpLin.v`, `Scale.v`.  Theorems in `Prop_Scale.v`.

Single reference channel and reference_id=None.

* `C32_agree`: C32
* `C32_agree_all`

### C33 — Minimal distortion principle is the optimal scaling (proved)

Source: `ssspy/algorithm/minimal_distortion_principle.py: minimal_distortion_principle`.  Model: `Eigh.v`, `NpLin.v`, `Scale.v`.  Theorems in `Prop_Scale.v`.

Optimality, invariance, idempotence, definedness; the default reference=None always fails (C33_default_refuted).

* `C33_default_refuted`: the documented default [reference=None] always raises
* `C33_defined`
* `C33_idempotent`
* `C33_optimal`
* `C33_scale`
* cases that meet the hypotheses: `C33_instance`

### C34 — Demixing filter recomputed after minimal distortion reproduces the scaled output (proved)

Source: `ssspy/bss/iva.py: IVABase.apply_minimal_distortion_principle`, `ssspy/bss/ilrma.py: ILRMABase.apply_minimal_distortion_principle`.  Model: `Eigh.v`, `NpLin.v`, `Scale.v`.  Theorems in `Prop_Scale.v`.

MDP for IVA-type classes and projection back for FastIVA; FastIVA with MDP violates it (C34_fastiva_mdp_refuted).

* `C34_fastiva_mdp_refuted`: C34, FastIVA with the minimal distortion principle (disagreement). The filter is refitted against the mixture, but [separate] applies it to the whitened mixture: the stored filter does not reproduce the stored output, whatever the eigen-solver.
* `C34_fastiva_projection_back`: FastIVA, projection back: the filter acts on the whitened signal [Z = A X]
* `C34_mdp`
* `C34_mdp_defined`
* `C34_projection_back`

### C35 — Whitened signals have identity covariance (proved)

Source: `ssspy/transform/whiten.py: whiten`.  Model: `Eigh.v`, `NpLin.v`, `Scale.v`.  Theorems in `Prop_Scale.v`.

For any eigen-solver meeting its contract; the real branch assumes real eigenvectors for real input.

* `C35_complex`
* `C35_real`: real input: [eigh] returns real eigenvectors for a real symmetric matrix
* `C35_rejects`
* cases that meet the hypotheses: `C35_instance`, `C35_real_instance`

### C36 — PCA output is uncorrelated, energy preserving and ordered (proved)

Source: `ssspy/transform/pca.py: pca`.  Model: `Eigh.v`, `NpLin.v`, `Scale.v`.  Theorems in `Prop_Scale.v`.

For any eigen-solver meeting its contract; the real branch assumes real eigenvectors for real input.

* `C36_complex`
* `C36_real`
* `C36_rejects`

### C37 — Proximal operators of the l1 and l2,1 norms (proved)

Source: `ssspy/linalg/prox.py: l1, l21`.  Model: `Eigh.v`, `NpLin.v`, `Prox.v`.  Theorems in `Prop_Prox.v`.

Global optimality with quadratic growth (hence uniqueness), zero set, and the zero-step case.

* `C37_l1`
* `C37_l1_zero`
* `C37_l21`
* `C37_l21_zero`
* `C37_zero_step`: with a zero step the operator is the identity, except that 0 becomes 0/0
* cases that meet the hypotheses: `C37_instance`

### C38 — Proximal operator of the negative log(-determinant) (proved)

Source: `ssspy/linalg/prox.py: neg_log, neg_logdet`.  Model: `Eigh.v`, `NpLin.v`, `Prox.v`.  Theorems in `Prop_Prox.v`.

neg_log and neg_logdet are global minimisers; for any SVD meeting its specification on the given matrix; square matrices.

* `C38_neg_log`
* `C38_neg_log_rejects`
* `C38_neg_logdet`
* `C38_singular_vectors`
* cases that meet the hypotheses: `C38_instance`

### C39 — IP1 update: normal equations and locality (proved)

Source: `ssspy/bss/_update_spatial_model.py: update_by_ip1`.  Model: `NpLin.v`, `SpatialIP.v`.  Theorems in `Prop_IP1.v`.

Exact arithmetic; flooring arbitrary for the sweep.

* `C39_normal_equations`: C39: one row update without flooring succeeds, changes row [n] only, the new row satisfies the IP normal equations [W' U_n w_n = e_n], and the result is invertible.
* `C39_sweep`: C39: the whole sweep never fails and keeps the filter invertible, for every flooring function which keeps positive values positive.
* cases that meet the hypotheses: `C39_instance`, `C39_sweep_instance`

### C40 — IP1 never increases the auxiliary cost (proved)

Source: `ssspy/bss/_update_spatial_model.py: update_by_ip1`.  Model: `NpLin.v`, `SpatialIP.v`.  Theorems in `Prop_IP1.v`.

Holds for identity and max_flooring(eps<=1); refuted for add_flooring and eps>1 (C40_*_refuted).

* `C40_add_flooring_refuted`
* `C40_large_floor_refuted`
* `C40_row_global_minimum`: C40: the updated row is a global minimiser: every invertible matrix which agrees with W outside row [n] has at least the same auxiliary cost.
* `C40_sweep_monotone`: C40: a full sweep never increases the auxiliary cost, with the default [max_flooring(eps)] for every [0 < eps <= 1].
* `C40_sweep_monotone_identity`: C40, same without flooring.
* cases that meet the hypotheses: `C40_instance`, `C40_row_instance`

### C41 — IP2 pairwise update: stationarity and global optimality over the pair (proved)

Source: `ssspy/bss/_update_spatial_model.py: update_by_ip2, update_by_ip2_one_pair`.  Model: `Eigh.v`, `NpLin.v`, `SpatialIP2.v`.  Theorems in `Prop_IP2.v`.

Identity flooring: full statement, any list of pairs. max_flooring: unchanged result when the floor is inactive, otherwise the cost can increase (C41_max_flooring_refuted).

* `C41_flooring_inactive`: C41: max_flooring(eps) with eps <= 1 changes nothing as soon as the weighted covariance [U_n] is not smaller than [eps^2 U_m] in every direction of the pair: some combination [x] of columns [m] and [n] of W^{-1} has [x^H U_m^{-1} x >= eps^2 x^H U_n^{-1} x].
* `C41_max_flooring_refuted`
* `C41_normal_equations`: C41: one pair update without flooring succeeds, changes rows [m] and [n] only, and both new rows satisfy the IP normal equations [W' U_k w_k = e_k]; the new filter is invertible.
* `C41_pair_global_minimum`: C41: the updated pair is a global minimiser: every invertible matrix which agrees with [W] outside the two rows has at least the same auxiliary cost.
* `C41_sweep_invertible`: C41: with an arbitrary flooring function which keeps positive values positive the sweep still never fails and keeps the filter invertible.
* `C41_sweep_monotone`: C41: a whole sweep over any list of pairs of different sources never fails, keeps the filter invertible and never increases the auxiliary cost.
* cases that meet the hypotheses: `C41_flooring_instance`, `C41_instance`

### C42 — ISS1 update acts as an invertible demixing update (proved)

Source: `ssspy/bss/_update_spatial_model.py: update_by_iss1`.  Model: `NpLin.v`, `SpatialISS.v`.  Theorems in `Prop_ISS1.v`.

Arbitrary flooring; per frequency bin, exact arithmetic.

* `C42_filter`
* `C42_invertible_action`: C42: a sweep multiplies the signals by an invertible matrix, so that the output stays of the form [W' X] with [W'] invertible.
* cases that meet the hypotheses: `C42_instance`

### C43 — ISS1 never increases the auxiliary cost (proved)

Source: `ssspy/bss/_update_spatial_model.py: update_by_iss1`.  Model: `AuxIVA.v`, `AuxIVARun.v`, `Eigh.v`, `NpLin.v`, `Scale.v`, `SpatialIP.v`, `SpatialIP2.v`, `SpatialISS.v`, `SpatialISS2.v`.  Theorems in `Prop_AuxIVARun.v`, `Prop_ISS1.v`.

Holds for identity and max_flooring(eps<=1); refuted for add_flooring (C43_add_flooring_refuted).

* `C43_add_flooring_refuted`
* `C43_step_optimal`: C43: each step is optimal: no other steering vector for source [n] gives a smaller auxiliary cost (without flooring, positive weighted powers).
* `C43_sweep_identity`: C43 without flooring: a sweep that stays finite never increases the auxiliary cost.
* `C43_sweep_monotone`: C43: with [max_flooring(eps)], [0 < eps <= 1], a sweep never increases the auxiliary cost, whatever the (non-negative) weights and signals.
* cases that meet the hypotheses: `C43_instance`

### C44 — ISS2 pairwise update never increases the auxiliary cost (proved)

Source: `ssspy/bss/_update_spatial_model.py: update_by_iss2`.  Model: `Eigh.v`, `NpLin.v`, `SpatialIP2.v`, `SpatialISS.v`, `SpatialISS2.v`.  Theorems in `Prop_ISS2.v`.

Identity flooring: optimal and monotone, any list of pairs, both pair orders, the list splitting is modelled. max_flooring: invertible, but the cost can increase (C44_max_flooring_refuted).

* `C44_max_flooring_refuted`
* `C44_step_invertible`: C44: one pair update keeps the order of the sources for both orders of the pair, multiplies the signals by an invertible matrix which differs from the identity in columns [m] and [n] only, and rows [m], [n] of the output are combinations of rows [m] and [n] ...
* `C44_step_optimal`: C44: without flooring the step is optimal: every steering matrix which differs from the identity in columns [m], [n] only has at least its cost.
* `C44_sweep_invertible`: C44: a whole sweep over any list of pairs of different sources.
* `C44_sweep_monotone`
* cases that meet the hypotheses: `C44_instance`

### C45 — AuxIVA with IP1 never increases its loss (proved)

Source: `ssspy/bss/iva.py: AuxIVA.update_once_ip1, AuxLaplaceIVA, AuxGaussIVA, IVABase.compute_loss`.  Model: `AuxIVA.v`, `Eigh.v`, `NpLin.v`, `Scale.v`, `SpatialIP.v`, `SpatialIP2.v`, `SpatialISS.v`, `SpatialISS2.v`.  Theorems in `Prop_AuxIVA.v`, `Prop_AuxIVAFloor.v`.

IP1/ISS1 with max_flooring(eps), eps<=1, when no floored norm is active (every norm >= eps/2); AuxLaplaceIVA with the floor active: increase bounded by n_sources*eps/2, and C45_floor_refuted shows a strict increase does occur. IP2/ISS2 without flooring. AuxGaussIVA includes the variance update.

* `C45_floor_refuted`
* `C45_gauss_ip1`
* `C45_gauss_iss1`
* `C45_ip1`
* `C45_ip1_no_flooring`
* `C45_ip2`
* `C45_ip2_pair`
* `C45_iss1`
* `C45_iss2`
* `C45_laplace_ip1`
* `C45_laplace_iss1`
* cases that meet the hypotheses: `C45_instance`, `C45_pair_instance`

### C46 — NMF source-model updates of ILRMA never increase the loss (proved)

Source: `ssspy/bss/ilrma.py: GaussILRMA.update_basis_mm, update_activation_mm, TILRMA, GGDILRMA, compute_loss`.  Model: `AuxIVA.v`, `Eigh.v`, `Ilrma.v`, `NpLin.v`, `Scale.v`, `SpatialIP.v`, `SpatialIP2.v`, `SpatialISS.v`, `SpatialISS2.v`.  Theorems in `Prop_Ilrma.v`.

Gauss, t and GGD models, MM and ME, plain and partitioned NMF, max_flooring and no flooring; exact real arithmetic.

* `C46_activation`
* `C46_activation_no_flooring`
* `C46_basis`: with the default flooring, from any parameters that are at least [eps] (as those produced by the initialisation and by the updates are), for every class, domain and algorithm
* `C46_basis_no_flooring`: without flooring, when no row of the separated signal is silent
* `C46_partitioned_activation`
* `C46_partitioned_basis`
* cases that meet the hypotheses: `C46_instance`

### C47 — ILRMA normalisation does not change the likelihood (proved)

Source: `ssspy/bss/ilrma.py: ILRMABase.normalize_by_power, normalize_by_projection_back`.  Model: `AuxIVA.v`, `Eigh.v`, `Ilrma.v`, `NpLin.v`, `Scale.v`, `SpatialIP.v`, `SpatialIP2.v`, `SpatialISS.v`, `SpatialISS2.v`, `AuxIVACall.v`, `AuxIVARun.v`, `IlrmaRun.v`.  Theorems in `Prop_Ilrma.v`, `Prop_IlrmaLatent.v`, `Prop_IlrmaRef.v`.

Power normalisation (filter, output and partitioned forms) and projection-back normalisation (filter and output forms). Projection back fails (division by zero) when a reference entry of the estimated mixing matrix is zero (C47_projection_back_refuted).

* `C47_power`
* `C47_power_latent`: with partitioning function: the latent variables still sum to one
* `C47_power_latent_output`
* `C47_power_output`
* `C47_power_unit`: when the floor is inactive every source has unit mean power afterwards
* `C47_projection_back`: normalisation by projection back, if no source has a zero reference entry
* `C47_projection_back_output`
* `C47_projection_back_refuted`: C47: with projection-back normalisation a zero entry in the reference row of the mixing estimate makes a filter vanish and the loss infinite.
* cases that meet the hypotheses: `C47_instance`

### C48 — One GaussILRMA iteration never increases the loss (proved)

Source: `ssspy/bss/ilrma.py: GaussILRMA.update_once`.  Model: `AuxIVA.v`, `Eigh.v`, `Ilrma.v`, `NpLin.v`, `Scale.v`, `SpatialIP.v`, `SpatialIP2.v`, `SpatialISS.v`, `SpatialISS2.v`.  Theorems in `Prop_IlrmaIter.v`, `Prop_IlrmaRef.v`.

IP1 and ISS1 full iterations, and the IP2/ISS2 spatial steps without flooring. GGD needs the floor on |y|^(2-beta) inactive. With max_flooring and normalisation the next iteration re-floors the normalised basis and the loss can rise (C48_floor_refuted).

* `C48_floor_refuted`
* `C48_ip1`
* `C48_iss1`
* `C48_run`
* `C48_spatial_ip1`
* `C48_spatial_ip1_no_flooring`
* `C48_spatial_ip2`: IP2 and ISS2 without flooring (see C41, C44)
* `C48_spatial_iss1`
* `C48_spatial_iss2`
* cases that meet the hypotheses: `C48_instance`

### C49 — Latent-variable update of partitioned ILRMA (proved)

Source: `ssspy/bss/ilrma.py: GaussILRMA.update_latent_mm`.  Model: `AuxIVA.v`, `Eigh.v`, `Ilrma.v`, `NpLin.v`, `Scale.v`, `SpatialIP.v`, `SpatialIP2.v`, `SpatialISS.v`, `SpatialISS2.v`.  Theorems in `Prop_Ilrma.v`, `Prop_IlrmaRef.v`.

Non-negativity and unit column sums; the MM step before renormalisation never increases the loss; the renormalised update can increase it (C49_refuted).

* `C49_latent_step`: C49: the multiplicative step of the latent variables does not increase the loss; afterwards every column sums to one
* `C49_latent_sums_to_one`
* `C49_refuted`: C49: the renormalisation of the latent variables is not compensated, so that [update_latent] can increase the loss.

### C50 — Multichannel NMF separation is consistent (proved)

Source: `ssspy/bss/mnmf.py: GaussMNMF.separate, FastGaussMNMF.separate`.  Model: `AuxIVA.v`, `Eigh.v`, `Ilrma.v`, `Mnmf.v`, `NpLin.v`, `Scale.v`, `SpatialIP.v`, `SpatialIP2.v`, `SpatialISS.v`.  Theorems in `Prop_Mnmf.v`.

Separated sources sum to the reference channel: GaussMNMF and FastGaussMNMF, with max_flooring when every modelled covariance has all eigenvalues at least eps (so the floor does not act), and with the identity floor for all positive definite spatial models.

* `C50_fast`
* `C50_fast_no_flooring`
* `C50_gauss`
* `C50_gauss_no_flooring`
* cases that meet the hypotheses: `C50_instance`

### C51 — MNMF normalisation preserves the model (proved)

Source: `ssspy/bss/mnmf.py: MNMF.normalize, FastMNMFBase.normalize_by_power`.  Model: `AuxIVA.v`, `Eigh.v`, `Ilrma.v`, `Mnmf.v`, `NpLin.v`, `Scale.v`, `SpatialIP.v`, `SpatialIP2.v`, `SpatialISS.v`.  Theorems in `Prop_Mnmf.v`, `Prop_MnmfGauss.v`.

Trace normalisation (GaussMNMF without partitioning) and power normalisation (FastGaussMNMF) preserve modelled covariances, loss and separated output; unit trace / unit power afterwards; definedness. With partitioning the trace normalisation can increase the loss (C51_partitioning_refuted; the code comment says so).

* `C51_fast`
* `C51_fast_defined`
* `C51_fast_unit`: after the power normalisation every diagonalised channel has unit mean power
* `C51_gauss`: C51
* `C51_gauss_defined`
* `C51_partitioning_refuted`: with [partitioning=True] the trace normalisation is not compensated and can increase the loss
* cases that meet the hypotheses: `C51_instance`

### C52 — FastMNMF parameter updates never increase the loss (proved)

Source: `ssspy/bss/mnmf.py: FastGaussMNMF.update_basis, update_activation, update_spatial, update_diagonalizer_ip1, compute_loss`.  Model: `AuxIVA.v`, `Eigh.v`, `Ilrma.v`, `Mnmf.v`, `NpLin.v`, `Scale.v`, `SpatialIP.v`, `SpatialIP2.v`, `SpatialISS.v`.  Theorems in `Prop_MnmfFast.v`.

Basis, activation, spatial and diagonaliser (IP1, IP2) updates never increase the FastGaussMNMF loss; whole update_once with max_flooring 0<eps<=1 with or without normalisation, and any number of iterations (IP1).

* `C52_activation`
* `C52_activation_no_flooring`
* `C52_basis`: one update at a time, [max_flooring]
* `C52_basis_no_flooring`: the same without flooring: no bin and no frame may be silent
* `C52_diag_ip1`
* `C52_diag_ip1_no_flooring`
* `C52_diag_ip2`
* `C52_once`
* `C52_run`
* `C52_spatial`: the spatial update is never floored
* cases that meet the hypotheses: `C52_instance`

### C53 — GaussMNMF spatial update solves its Riccati equation (proved)

Source: `ssspy/bss/mnmf.py: GaussMNMF.update_spatial`.  Model: `AuxIVA.v`, `Eigh.v`, `Ilrma.v`, `Mnmf.v`, `NpLin.v`, `Scale.v`, `SpatialIP.v`.  Theorems in `Prop_MnmfGauss.v`.

Spatial update of GaussMNMF returns the unique positive definite solution of the Riccati equation, with max_flooring when no eigenvalue is below eps and with the identity floor when Q is positive definite.

* `C53_riccati`
* `C53_riccati_no_flooring`

### C54 — FastICA/FastIVA filters are unitary after every update (proved)

Source: `ssspy/bss/ica.py: FastICA.update_once`, `ssspy/bss/fdica.py`, `ssspy/bss/iva.py: FastIVA.update_once, FasterIVA.update_once`.  Model: `AuxIVA.v`, `Eigh.v`, `Gradient.v`, `NpLin.v`, `Prox.v`, `Scale.v`, `SpatialISS.v`.  Theorems in `Prop_Fast.v`.

FastICA (real), FastIVA and FasterIVA update_once: unitary filters for every input on which the update is defined, definedness, white outputs after any positive number of iterations; np.linalg.svd and eigh are parameters with satisfiable contracts.

* `C54_fasteriva`: C54 (FasterIVA): the same; the rows are the eigenvectors of the weighted covariance matrices with the largest eigenvalues.
* `C54_fasteriva_defined`
* `C54_fastica`: C54 (FastICA): after an update from any filter, for any score functions, the rows of the filter are orthonormal; hence on white data the outputs are white.
* `C54_fastica_fails`: C54 (FastICA): an update fails only when there is no frame, or when the new direction of some source vanishes once the rows above it have been updated.
* `C54_fastiva`: C54 (FastIVA): after an update from any filters the filters are unitary; they are the documented (W W^H)^{-1/2} W of the filters given by the fixed-point formula.
* `C54_fastiva_defined`: the update fails only on frames at which the floored norm vanishes
* `C54_run`: C54: after any positive number of updates the filters are unitary, and on white data so are the outputs.
* cases that meet the hypotheses: `C54_fastica_instance`, `C54_fastiva_instance`

### C55 — Natural-gradient updates are equivariant (proved)

Source: `ssspy/bss/ica.py: NaturalGradICA.update_once`, `ssspy/bss/iva.py: NaturalGradIVA.update_once`, `ssspy/bss/fdica.py: NaturalGradFDICA.update_once`.  Model: `AuxIVA.v`, `Eigh.v`, `Gradient.v`, `NpLin.v`, `Prox.v`, `Scale.v`, `SpatialISS.v`.  Theorems in `Prop_Gradient.v`.

NaturalGradICA/FDICA/IVA (one generic model): equivariance for any number of iterations, stationarity condition, relation to the plain gradient; C55_gradient_refuted shows the plain gradient is not equivariant, as documented.

* `C55_equivariant`: C55: mixing the input by any invertible matrices (one per bin) and starting from the filters times their inverses gives, after any number of iterations, the same separated signals and the filters times the inverses.
* `C55_gradient_defined`: C55: the plain gradient update is defined exactly when there are frames and the filters can be inverted
* `C55_gradient_refuted`
* `C55_output`: C55: the run is defined as soon as there are frames, and the output returned is the one of the returned filters.
* `C55_relation`: C55: the natural gradient is the gradient times W^H W.
* `C55_same_side`: C55: the two directions never oppose each other.
* `C55_stationary`: C55: the filters are a fixed point exactly when the condition of ICA holds: scores and outputs are uncorrelated across sources (and normalised, in the holonomic case).
* cases that meet the hypotheses: `C55_instance`

### C56 — CACGMM posterior probabilities and mixing weights are normalised (proved)

Source: `ssspy/bss/cacgmm.py: CACGMM.update_posterior, update_parameters, normalize_covariance, separate`.  Model: `Cacgmm.v`, `Eigh.v`, `NpLin.v`, `Special.v`.  Theorems in `Prop_Cacgmm.v`, `Prop_CacgmmEM.v`.

posterior is the Bayes posterior of the floored densities and sums to one; weights sum to one; covariances Hermitian with unit trace; outputs sum to the reference channel; the step is defined from any valid parameters

* `C56_call`: C56: the separated signals of a call sum to the reference channel, whatever permutations the solver finds, and weights and posteriors are normalised.
* `C56_call_posterior`: the posteriors that are returned, and hence the masks, are those of the returned parameters
* `C56_defined`: C56: with positive flooring every number of updates is defined from positive weights and positive definite covariances, and keeps them so.
* `C56_parameters`: C56: after an update the mixing weights are positive and sum to one in every bin; the covariances are Hermitian, and have unit trace when they are normalised.
* `C56_posterior`: C56: the posteriors are a probability distribution over the sources, given by Bayes' rule.
* `C56_posterior_defined`
* `C56_unit_input`: the unit-norm observations
* cases that meet the hypotheses: `C56_instance`

### C57 — ADMM/PDS filter update solves its least-squares subproblem (proved)

Source: `ssspy/bss/admmbss.py: ADMMBSS.update_once`.  Model: `Eigh.v`, `NpLin.v`, `Prox.v`, `ProxBss.v`.  Theorems in `Prop_ProxBss.v`.

proved for white input (X X^H = a I) and definedness for all inputs; the general statement is refuted with a 2x1 witness

* `C57_defined`: the update is always defined
* `C57_refuted`: In general it solves (Q X X^H + I)^T W = B instead of W (Q X X^H + I) = B: with one penalty, X = [1; 0] and V - Y = E_12 the returned filter is not optimal.
* `C57_whitened`: it solves the least-squares problem when the channels are white (X X^H = a I)
* cases that meet the hypotheses: `C57_instance`

### C58 — Loss recording of prox-based methods (proved)

Source: `ssspy/bss/proxbss.py: ProxBSSBase.__init__`, `ssspy/bss/pdsbss.py: PDSBSS.__init__`.  Model: `Iter.v`, `ProxCtor.v`.  Theorems in `Prop_ProxCtor.v`.

record_loss=True records every loss; the default never records although resolved to True (refuted); masking classes always raise TypeError when recording; accepted argument combinations characterised

* `C58_accepts`
* `C58_default`: The constructors resolve the default record_loss=None to True when a penalty function is given, and the documentation of the masking classes promises that default; the resolved value is never stored and nothing is recorded.
* `C58_masking`: A masking object that does record fails at the first loss: the single penalty function is not put into a list.
* `C58_masking_accepts`: the masking classes take a single mask and at most a single penalty function
* `C58_off`: record_loss=False never records and never fails
* `C58_recorded`: With record_loss=True, the losses of all iterations are recorded: one value per update and one for the initial state.
* `C58_refuted`: hence the documented default fails for some constructible object
* cases that meet the hypotheses: `C58_instance`

### C59 — Constructor option validation (proved)

Source: `ssspy/bss/iva.py: AuxIVA.__init__`, `ssspy/bss/ilrma.py: GaussILRMA.__init__, TILRMA.__init__, GGDILRMA.__init__`.  Model: `Options.v`.  Theorems in `Prop_Options.v`.

Constructors and dispatch of AuxIVA, AuxFDICA, the ILRMA classes, FastGaussMNMF and the IPSDTA classes; late failures characterised by C59_runs, C59_scale, C59_perm, C59_normalization, C59_contrast, C59_ipsdta_refuted.

* `C59_accepts`: The constructors accept exactly the documented options.
* `C59_contrast`: AuxIVA can be constructed without its contrast functions, which are optional arguments, and cannot be used then
* `C59_dispatch`: Every iteration of a call that finishes runs the spatial algorithm that was asked for, once, and the updates of the source model that was asked for; nothing else is ever dispatched to.
* `C59_ipsdta_refuted`: The fixed point iteration is accepted by GaussIPSDTA although every call raises, even without iterations; TIPSDTA accepts it and fails in its first update, after the source model has been updated. The EM algorithm is accepted and fails in the first update.
* `C59_names`: Otherwise an algorithm name that is not in the class' list fails with AssertionError
* `C59_normalization`: For the ILRMA classes an unknown normalisation, or projection back with the partitioning function, is reported in the first update, after the source model and the demixing filter have been updated.
* `C59_perm`: For AuxFDICA the same holds for an unknown permutation alignment: it is reported after the last iteration.
* `C59_reference`: Scale restoration without a reference channel is rejected with ValueError whatever the other options are, except that an unknown keyword argument may be reported first.
* `C59_runs`: A constructed object finishes a call with at least one iteration exactly for these options.
* `C59_scale`: An unknown keyword for the scale restoration is accepted by every class; a call then does everything it would do with scale restoration switched off, and raises ValueError instead of returning the result.
* cases that meet the hypotheses: `C59_instance`, `C59_instance_late`

### C60 — Block decomposition of frequency bins in IPSDTA is a partition (proved)

Source: `ssspy/bss/ipsdta.py: GaussIPSDTA.update_spatial_model_vcd, BlockDecompositionIPSDTABase._init_block_decomposition_psdtf`.  Model: `Blocks.v`.  Theorems in `Prop_Blocks.v`.

Block split/merge of the frequency axis as list operations; the update of a block is an arbitrary size-preserving function.

* `C60_basis_dims`: The basis matrices are allocated with exactly the dimensions of the blocks.
* `C60_more_blocks_than_bins`: more blocks than bins: the leading blocks are empty and the remaining ones are single bins
* `C60_no_block`: no block at all: ZeroDivisionError
* `C60_partition`: For every number of bins and every positive number of blocks the bins are cut, in order and without loss, into [n_blocks] blocks whose sizes differ by at most one; the [n_bins mod n_blocks] larger blocks come last.
* `C60_update`
* cases that meet the hypotheses: `C60_instance`

### C64 — GaussMNMF parameter updates never increase the loss (proved)

Source: `ssspy/bss/mnmf.py: GaussMNMF.update_once, update_basis, update_activation, update_spatial, update_latent, compute_loss`.  Model: `AuxIVA.v`, `Eigh.v`, `Ilrma.v`, `Mnmf.v`, `NpLin.v`, `Scale.v`, `SpatialIP.v`.  Theorems in `Prop_MnmfGauss.v`.

Every GaussMNMF update and update_once (without partitioning) never increases the loss when no floor acts; partitioned basis/activation/latent multiplicative step likewise; the full latent update is refuted (C64_latent_refuted) because the column renormalisation is not compensated.

* `C64_activation`
* `C64_activation_no_flooring`
* `C64_basis`: C64, one update at a time
* `C64_basis_no_flooring`
* `C64_latent_refuted`: the whole latent update can increase the loss: renormalising the columns of the latent matrix is not compensated in the basis
* `C64_latent_simplex`: the whole latent update keeps the latent variables positive with columns summing to one
* `C64_latent_step`: the multiplicative half of the latent update
* `C64_once`
* `C64_once_no_flooring`
* `C64_partitioned_activation`
* `C64_partitioned_basis`
* `C64_spatial`
* `C64_spatial_no_flooring`
* cases that meet the hypotheses: `C64_once_instance`, `C64_once_no_flooring_instance`

### C65 — Permutation-alignment options of CACGMM (proved)

Source: `ssspy/bss/cacgmm.py: CACGMM.__init__, CACGMMBase.solve_permutation, solve_permutation_by_correlation`.  Model: `Cacgmm.v`, `Eigh.v`, `NpLin.v`, `Special.v`.  Theorems in `Prop_CacgmmEM.v`.

dispatch of all option values and keyword lists characterised; documented target 'posterior' of the correlation solver refuted (AssertionError)

* `C65_keywords`: keywords of the iteration counts are accepted exactly for the score-based solvers
* `C65_posterior_correlation_refuted`: The documentation of [solve_permutation_by_correlation] offers the target "posterior" (cacgmm.py:381-382), and the dispatch accepts "posterior_correlation" (line 272), but the call always raises an AssertionError; the constructor accepts the option.
* `C65_supported`: [True] selects the score of the posteriors; the names containing "score" and the correlation of amplitudes work; all other strings are rejected.

### C67 — CACGMM EM updates never increase the loss (proved)

Source: `ssspy/bss/cacgmm.py: CACGMM.update_once, update_posterior, update_parameters, normalize_covariance, compute_loss`.  Model: `Cacgmm.v`, `Eigh.v`, `NpLin.v`, `Special.v`, `AuxIVA.v`, `SpatialISS.v`.  Theorems in `Prop_CacgmmEM.v`, `Prop_CacgmmFree.v`.

one update and whole runs, with normalisation (floor at most 1, unit-trace covariances above the floor); without normalisation when the new traces stay below 1/floor

* `C67_loss`: C67: the loss is the negative log-likelihood of the mixture, up to constants
* `C67_no_flooring`: C67: then, with or without normalisation, no iteration increases the loss
* `C67_normalized`: C67: an update with normalisation does not increase the loss: for unit-norm observations, a floor at most 1, weights summing to one and covariances of unit trace above the floor (the covariance after the update may be floored).
* `C67_run`: C67: along a run with normalisation whose covariances stay above the floor the loss never increases.
* `C67_unnormalized`: C67: without normalisation, when the quadratic forms stay above the floor
* cases that meet the hypotheses: `C67_instance`

### C68 — Fixed points of the proximal methods are critical points of the loss (proved)

Source: `ssspy/bss/pdsbss.py: PDSBSS.update_once`, `ssspy/bss/admmbss.py: ADMMBSS.update_once`, `ssspy/bss/proxbss.py: ProxBSSBase.compute_loss`, `ssspy/linalg/prox.py`.  Model: `Eigh.v`, `NpLin.v`, `Prox.v`, `ProxBss.v`.  Theorems in `Prop_ProxBss.v`.

PDSBSS for all inputs, ADMMBSS for white inputs (see C57); l1 and l21 shown to be exact proximal operators of whole arrays

* `C68_admm`: C68 for ADMMBSS, white data
* `C68_admm_defined`
* `C68_l1`
* `C68_l21`
* `C68_loss`: compute_loss is the documented cost when it is defined
* `C68_pds`: C68: at a fixed point of PDSBSS.update_once no other demixing filter has a smaller loss by more than the quadratic term: W minimises loss(Z) + |Z - W|^2 / (2 mu1).
* `C68_pds_defined`: the iteration never fails
* cases that meet the hypotheses: `C68_instance`

### C69 — Masking variants agree with the plain proximal methods (proved)

Source: `ssspy/bss/pdsbss.py: MaskingPDSBSS.update_once`, `ssspy/bss/admmbss.py: MaskingADMMBSS.update_once`.  Model: `Eigh.v`, `NpLin.v`, `Prox.v`, `ProxBss.v`.  Theorems in `Prop_ProxBss.v`.

equality of complete runs

* `C69_admm`
* `C69_pds`
* cases that meet the hypotheses: `C69_instance`

### C61 — Vector-wise coordinate descent minimises the IPSDTA cost over each filter row (proved)

Source: `ssspy/bss/_update_spatial_model.py: update_by_block_decomposition_vcd`, `ssspy/bss/ipsdta.py: GaussIPSDTA.update_spatial_model_vcd, TIPSDTA.update_spatial_model_vcd`.  Model: `NpLin.v`, `SpatialIP.v`, `Vcd.v`.  Theorems in `Prop_Vcd.v`.

Sweep over one block; optimality per row and monotonicity for the default singular_fn, equality with IP1 for single bins; C61_floor_partial covers the floored call when no xi_hat lies strictly between 0 and the floor, C61_floor_refuted and C61_no_flooring_refuted show the call as made by IPSDTA fails otherwise.

* `C61_floor_partial`: As called by GaussIPSDTA and TIPSDTA ([|xi_hat| < flooring_fn(0)]) the same holds as long as no [xi_hat] met in the sweep falls into the open interval between 0 and the floor. Missing for the full claim: runs with [0 < |xi_hat| < flooring_fn(0)], for which it ...
* `C61_floor_refuted`: For every positive floor the sweep of IPSDTA increases the cost for some positive definite Hermitian data and an invertible filter.
* `C61_ip1`: Then the sweep is iterative projection in every bin: the filters returned are those of IP1.
* `C61_monotone`: With the default [singular_fn] a sweep over all neighbours and sources is defined, keeps the filters invertible and does not increase the cost.
* `C61_no_flooring_refuted`: Without a floor ([flooring_fn=None]) [|xi_hat| < 0] never holds, and the sweep divides by zero as soon as a bin is not coupled to the others: with blocks of one bin, always.
* `C61_optimal`: With the default [singular_fn] the step replaces row [n] of neighbour [i] by a global minimiser of the cost over all rows that keep the filter invertible.
* `C61_uncoupled`: Whatever the data, when the neighbours are not coupled (blocks of one bin in particular).
* cases that meet the hypotheses: `C61_instance`, `C61_no_flooring_instance`

### C71 — GaussIPSDTA never increases its loss (proved)

Source: `ssspy/bss/ipsdta.py: GaussIPSDTA.update_once, update_source_model, update_basis_mm, update_activation_mm, update_spatial_model_vcd, compute_loss`.  Model: `AuxIVA.v`, `Eigh.v`, `Ipsdta.v`, `Mnmf.v`, `NpLin.v`, `SpatialIP.v`, `SpatialISS.v`, `Vcd.v`.  Theorems in `Prop_Ipsdta.v`.

Conditional on the flooring not acting along the iteration (quiet); C71_instance shows a state where it holds. Cholesky and eigh enter through contracts.

* `C71_activation`: The update of the activations, when no source is silent in a frame.
* `C71_basis`: The update of the bases is defined, keeps them positive definite, solves its Riccati equation and does not increase the loss.
* `C71_filters`
* `C71_once`
* `C71_run`
* cases that meet the hypotheses: `C71_instance`, `C71_once_instance`

### C72 — PSDTF normalisation is invisible to the loss (proved)

Source: `ssspy/bss/ipsdta.py: BlockDecompositionIPSDTABase.normalize_block_decomposition_psdtf`.  Model: `AuxIVA.v`, `Eigh.v`, `Ipsdta.v`, `Mnmf.v`, `NpLin.v`, `SpatialIP.v`, `SpatialISS.v`, `Vcd.v`.  Theorems in `Prop_Ipsdta.v`.

Real-number semantics.

* `C72_defined`: It is defined exactly when no basis has trace zero; positive definite bases qualify.
* `C72_idempotent`: Normalising twice changes nothing more.
* `C72_norm`: The reconstructed covariances, and with them the loss, are those of before; every basis has total trace 1.
* cases that meet the hypotheses: `C72_instance`

### C73 — TIPSDTA never increases its loss (proved)

Source: `ssspy/bss/ipsdta.py: TIPSDTA.update_once, update_source_model, update_basis_mm, update_activation_mm, update_spatial_model_vcd, compute_loss`.  Model: `AuxIVA.v`, `Eigh.v`, `Ipsdta.v`, `Mnmf.v`, `NpLin.v`, `SpatialIP.v`, `SpatialISS.v`, `Vcd.v`.  Theorems in `Prop_Ipsdta.v`.

Conditional on the flooring not acting along the iteration (quiet_t) and floor <= 1; C73_instance shows a state where it holds.

* `C73_activation`
* `C73_basis`
* `C73_filters`
* `C73_once`
* `C73_run`
* cases that meet the hypotheses: `C73_instance`, `C73_once_instance`

### C62 — Inverse of a positive semidefinite matrix with flooring (proved)

Source: `ssspy/bss/_update_spatial_model.py: _psd_inv`.  Model: `Eigh.v`, `NpLin.v`.  Theorems in `Prop_PsdInv.v`.

For every Hermitian matrix and every solver satisfying the eigh contract.

* `C62_bound`: the default flooring: the result is positive definite and bounded by 1/eps whatever the eigenvalues
* `C62_default`: with the default flooring this is the case when no eigenvalue is below eps
* `C62_inverse`: where the flooring does nothing the result is the inverse
* `C62_singular`: without flooring a singular matrix has no result
* `C62_to_psd`: the result inverts the matrix whose eigenvalues have been floored, which for the same flooring function is [to_psd] of the argument
* cases that meet the hypotheses: `C62_instance`, `C62_instance_bound`

### C63 — lqpqm2 minimises its log-quadratically penalised objective (proved)

Source: `ssspy/linalg/lqpqm.py: lqpqm2, solve_equation`.  Model: `Cubic.v`, `Eigh.v`, `Lqpqm.v`, `Lqpqm2.v`, `NpLin.v`.  Theorems in `Prop_Lqpqm2.v`.

Unique minimiser on convergence when the largest eigenvalue of H is 1 (C63_unit; within eps for the default flooring C63_floored; in the limit C63_limit; one-dimensional problems C63_one, C63_one_singular). In general refuted: C63_never/C63_refuted (second normalisation), C63_singular_refuted (row instead of column of the eigenvectors), C63_floor_refuted (masking below the floor).

* `C63_floor_refuted`: C63 with the default flooring, unit coefficient: a linear term of norm between the floor and its square root is masked out of the equation but not treated as zero; the returned point then has an objective larger than another point by more than 1/20
* `C63_floored`: C63: for a bin whose largest eigenvalue is 1, a call that converged within the floor returns a point whose objective is within the floor of the infimum
* `C63_limit`: C63, identity flooring: the objective converges to its infimum as [max_iter] grows, whatever the other bins
* `C63_never`: ... and when the largest eigenvalue is not 1, what is returned on convergence is never the minimiser
* `C63_one`: C63, one-dimensional bin with unit coefficient: the unique minimiser, for every flooring function that does not act on 1 and does not mask the component of v, whatever the other bins and the iteration limit
* `C63_one_singular`
* `C63_refuted`: C63: in one dimension with a coefficient other than 1 the call always succeeds without warning and never returns the minimiser
* `C63_singular_refuted`: C63: for the matrix diag(2, 3, 1), v = 0 and z = 0 the call succeeds without warning and returns a unit vector of the wrong eigenspace, whatever [eigh] chooses
* `C63_unit`: C63: a bin whose largest eigenvalue is 1, on convergence: the unique minimiser
* cases that meet the hypotheses: `C63_instance`, `C63_instance_two`

### C74 — Iterative projection with adjustment minimises the auxiliary function (proved)

Source: `ssspy/bss/_update_spatial_model.py: update_by_ipa`, `ssspy/linalg/lqpqm.py: lqpqm2`.  Model: `Cubic.v`, `Eigh.v`, `Ipa.v`, `Lqpqm.v`, `Lqpqm2.v`, `NpLin.v`, `SpatialISS.v`.  Theorems in `Prop_Ipa.v`, `Prop_IpaCases.v`, `Prop_IpaRun.v`.

update_by_ipa: C74_reduction (exact reduction to lqpqm2 for any number of sources), C74_two_sources / C74_two_defined / C74_two_call (two sources: optimal, defined, monotone), C74_never and C74_three_refuted (three or more sources: not optimal), C74_refuted (four sources: the auxiliary function increases)

* `C74_never`: C74: with at least three sources and the default trace normalisation a converged step is never the optimal change, unless the linear term is orthogonal to a top eigenvector
* `C74_reduction`: C74: the step is exactly the log-quadratically penalised minimisation handed to [lqpqm2]: it changes row and column n only, and it is the optimal change if and only if [lqpqm2] returned a minimiser.
* `C74_refuted`: C74: four sources, default flooring, default trace normalisation: the step for the first source succeeds without warning, no floor acts on the data, and the auxiliary function rises by at least 1/4
* `C74_three_refuted`: C74: three sources, no flooring, default trace normalisation: the step for the first source converges without warning and is not the optimal change
* `C74_two_call`: C74: for two sources one call of [update_by_ipa] is defined, issues no warning, and lowers the auxiliary function of every bin or leaves it unchanged
* `C74_two_defined`: C74: for two sources the step is defined and issues no warning, for every positive iteration limit
* `C74_two_sources`: C74: for two sources and the default trace normalisation every step is the optimal change, for every iteration limit, whatever the other bins
* `C74_warning`: C74: a call warns if and only if the solver of one of its steps, one per source in their order and each on the result of the previous one, did not converge
* cases that meet the hypotheses: `C74_instance`, `C74_instance_call`

### C75 — The losses recorded during an AuxIVA run never increase (proved)

Source: `ssspy/bss/base.py: IterativeMethodBase.__call__`, `ssspy/bss/iva.py: AuxIVA.update_once, AuxLaplaceIVA, AuxGaussIVA.update_once, update_once_ip2, update_source_model`.  Model: `AuxIVA.v`, `AuxIVARun.v`, `Eigh.v`, `NpLin.v`, `Scale.v`, `SpatialIP.v`, `SpatialIP2.v`, `SpatialISS.v`, `SpatialISS2.v`.  Theorems in `Prop_AuxIVARun.v`.

whole runs: C75_filter_run, C75_output_run, C75_gauss_filter_run, C75_gauss_output_run (no flooring, all four spatial algorithms), C75_laplace_ip1/iss1 (max_flooring, unconditional), C75_ip1_floor, C75_iss1_floor, C75_gauss_ip1_floor, C75_gauss_iss1_floor (max_flooring inactive on the norms)

* `C75_filter_run`: C75: without flooring, for every super-Gaussian contrast and every spatial algorithm, the losses recorded by a run of any length that stays finite never increase
* `C75_gauss_filter_run`
* `C75_gauss_ip1_floor`
* `C75_gauss_iss1_floor`
* `C75_gauss_output_run`
* `C75_ip1_floor`
* `C75_iss1_floor`
* `C75_laplace_ip1`: C75: AuxLaplaceIVA with IP1 or ISS1: every run is defined, whatever the signals, and no iteration adds more than [n_sources * eps / 2] to the loss
* `C75_laplace_iss1`
* `C75_output_run`
* cases that meet the hypotheses: `C75_instance`, `C75_pair_instance`

### C70 — The mask of harmonic vector analysis (proved)

Source: `ssspy/bss/hva.py: MaskingPDSHVA.__init__ mask_fn, MaskingADMMHVA.__init__ mask_fn`.  Model: `Hva.v`, `NpLin.v`, `SpatialIP.v`.  Theorems in `Prop_Hva.v`.

One frame; irfft of a real array as a cosine series, shown to be its own inverse. C70_attenuation_refuted: the attenuation of the first call is kept; C70_shrink_refuted: negative cepstral coefficients.

* `C70_attenuation_refuted`
* `C70_bound`
* `C70_default`: the default attenuation is [1 / n_sources]: the [n_sources]-th powers of the masks sum to one
* `C70_defined`: with the default kind of floor the mask is defined for every input of at least two bins, and a given attenuation is used and kept
* `C70_gain`
* `C70_partition`: the undamped masks of all sources sum to one in every bin
* `C70_range`: the mask lies in (0, 1]: masking never amplifies
* `C70_scale`
* `C70_shrink`: the cosine shrinkage
* `C70_shrink_refuted`: Disagreement: it is not a shrinkage for negative coefficients, a larger one can be removed where a smaller one is kept
* `C70_single_bin`
* `C70_wiener`
* cases that meet the hypotheses: `C70_instance`

### C76 — Spectral normalisation makes the splitting operator a contraction (proved)

Source: `ssspy/bss/proxbss.py:205-223`.  Model: `Eigh.v`, `NpLin.v`, `Prox.v`, `ProxBss.v`, `SpectralNorm.v`.  Theorems in `Prop_SpectralNorm.v`.

np.linalg.norm(ord=2) is a parameter with a contract (bound of the gain, attained), shown satisfiable through the spectral theorem.

* `C76_bound`: The stacked operator W |-> (W X'_i)_q has norm at most 1, for filters with any number of rows.
* `C76_fails`: The division by zero happens for a silent recording and without penalties only.
* `C76_gain`
* `C76_idempotent`: Normalising twice is normalising once.
* `C76_step_size`: Hence the step sizes mu1, mu2 of the primal-dual splitting satisfy its convergence condition mu1 mu2 ||L||^2 <= 1 exactly when mu1 mu2 <= 1; the defaults are mu1 = mu2 = 1 (pdsbss.py:58-65).
* `C76_tight`: The norm 1 is reached in some bin.
* cases that meet the hypotheses: `C76_instance`

### C77 — AuxFDICA is one-bin AuxIVA in every bin and its loss never increases (proved)

Source: `ssspy/bss/fdica.py:846-1245`, `ssspy/bss/fdica.py:199-223`, `ssspy/bss/fdica.py:1527-1653`.  Model: `AuxFDICA.v`, `AuxIVA.v`, `AuxIVARun.v`, `Eigh.v`, `NpLin.v`, `Scale.v`, `SpatialIP.v`, `SpatialIP2.v`, `SpatialISS.v`.  Theorems in `Prop_AuxFDICA.v`.

AuxFDICA.v is written from fdica.py independently of AuxIVA.v; C77_bins relates the two. Flooring: C77_laplace_ip1, C77_ip1_floor, C77_floor_refuted.

* `C77_bins`: An iteration of AuxFDICA is, in every bin, an iteration of AuxIVA on that bin alone; it fails only if one of those fails.
* `C77_floor_refuted`: With the floor active the loss does increase for some recordings, whatever the floor.
* `C77_ip1_floor`: General contrast functions, as long as no modulus is below [eps / 2].
* `C77_laplace_ip1`: AuxLaplaceFDICA with the default flooring: every run succeeds and no iteration increases the loss by more than [n_bins * n_sources * eps / 2].
* `C77_loss`
* `C77_loss_defined`
* `C77_permutation`: The permutation alignment after the iterations does not change it: the rows of the filters may be rearranged differently in every bin.
* `C77_run`: Without flooring the losses recorded by a run never increase, IP1 and IP2.
* cases that meet the hypotheses: `C77_instance`

### C66 — Gradient methods descend the loss they report (proved)

Source: `ssspy/bss/ica.py:156-189`, `ssspy/bss/ica.py:535-554`, `ssspy/bss/fdica.py:199-241`, `ssspy/bss/fdica.py:629-650`, `ssspy/bss/iva.py:200-236`, `ssspy/bss/iva.py:795-818`, `ssspy/bss/iva.py:969-988`.  Model: `AuxIVA.v`, `Eigh.v`, `GradLoss.v`, `Gradient.v`, `NpLin.v`, `SpatialISS.v`.  Theorems in `Prop_GradLoss.v`.

Proved for the holonomic gradient and both natural gradients; the non-holonomic plain gradient is refuted as a descent method (C66_nonholonomic_refuted).

* `C66_bins`: C66: the loss of FDICA is the loss of IVA for the contrast summed over the bins, so the two theorems above are about it as well
* `C66_bins_laplace`: GradLaplaceFDICA and NaturalGradLaplaceFDICA
* `C66_descent`: C66: so a holonomic gradient step, and a natural gradient step of both types, decrease the loss for every small enough step size, unless they do not move the filters at all
* `C66_gauss`: GradGaussIVA and NaturalGradGaussIVA, for the variances held by the object
* `C66_gradient`: C66: the displacement of a holonomic gradient step is the gradient of the loss: for every direction, the derivative of the loss is the inner product with it
* `C66_laplace`: C66: the scores of the library are the derivatives of its contrasts, where the flooring is not active. GradLaplaceIVA and NaturalGradLaplaceIVA:
* `C66_nonholonomic_refuted`: C66 refuted: with the signals of GradLaplaceICA, a plain gradient step of the non-holonomic type increases the loss for every small step size
* `C66_real_descent`
* `C66_real_gradient`
* `C66_real_laplace`: GradLaplaceICA and NaturalGradLaplaceICA
* cases that meet the hypotheses: `C66_instance`, `C66_iva_instance`

### C78 — Calls follow the gain and the phase of the recording (proved)

Source: `ssspy/bss/iva.py:1637-1777`, `ssspy/bss/iva.py:3319-3337`, `ssspy/bss/fdica.py:979-1116`, `ssspy/bss/_update_spatial_model.py:10-60`.  Model: `AuxFDICA.v`, `AuxIVA.v`, `AuxIVACall.v`, `Eigh.v`, `NpLin.v`, `Scale.v`, `SpatialIP.v`, `SpatialISS.v`.  Theorems in `Prop_AuxGain.v`.

Calls without flooring (flooring_fn=None); IP2, ISS2 and IPA are not covered (their eigenvectors are only determined up to a phase).

* `C78_gain_fdica`
* `C78_gain_gauss_ip1`
* `C78_gain_gauss_iss1`
* `C78_gain_ip1`: the gain of the input: [gained z X] multiplies bin [i] by [z i], all of the same modulus
* `C78_gain_iss1`
* `C78_mixing`
* `C78_mixing_gauss`
* cases that meet the hypotheses: `C78_instance`

### C79 — The frames only matter through their values: their order and an even repetition do not (proved)

Source: `ssspy/bss/iva.py:1637-1735`, `ssspy/bss/fdica.py:979-1063`, `ssspy/bss/ilrma.py:820-922`, `ssspy/bss/ilrma.py:365-514`.  Model: `AuxFDICA.v`, `AuxIVA.v`, `AuxIVACall.v`, `AuxIVARun.v`, `Eigh.v`, `NpLin.v`, `Scale.v`, `SpatialIP.v`, `SpatialIP2.v`, `SpatialISS.v`, `SpatialISS2.v`, `Ilrma.v`, `IlrmaRun.v`.  Theorems in `Prop_Frames.v`, `Prop_FramesIlrma.v`.

runs with recorded losses and complete calls with projection back; IPA is not included

* `C79_call_fdica`
* `C79_call_gauss_ip1`
* `C79_call_gauss_iss1`
* `C79_call_laplace_ip1`: the calls return those frames of what they return for the original recording
* `C79_call_laplace_iss1`
* `C79_fdica_run`
* `C79_filter_run`: AuxIVA with filters (IP1, IP2): the same filters and the same recorded losses
* `C79_gauss_filter_run`
* `C79_gauss_output_run`
* `C79_ilrma_call_f`
* `C79_ilrma_call_o`
* `C79_ilrma_filter_run`: every variant of ILRMA: Gauss, t or GGD; MM or ME; IP1, IP2, ISS1 or ISS2; every normalisation
* `C79_ilrma_output_run`
* `C79_output_run`: AuxIVA without filters (ISS1, ISS2): the outputs are those frames of the outputs
* `C79_partitioned_filter_run`
* `C79_partitioned_output_run`
* cases that meet the hypotheses: `C79_ilrma_instance`, `C79_instance`

### C80 — The order of the frequency bins does not matter for AuxIVA and ILRMA (proved)

Source: `ssspy/bss/iva.py:1637-1735`, `ssspy/bss/iva.py:3319-3337`, `ssspy/bss/ilrma.py:820-922`.  Model: `AuxFDICA.v`, `AuxIVA.v`, `AuxIVACall.v`, `AuxIVARun.v`, `Eigh.v`, `Ilrma.v`, `IlrmaRun.v`, `NpLin.v`, `Scale.v`, `SpatialIP.v`, `SpatialIP2.v`, `SpatialISS.v`, `SpatialISS2.v`.  Theorems in `Prop_Bins.v`.

runs with recorded losses and complete calls with projection back; IPA is not included

* `C80_call_gauss_ip1`
* `C80_call_gauss_iss1`
* `C80_call_laplace_ip1`
* `C80_call_laplace_iss1`
* `C80_filter_run`
* `C80_gauss_filter_run`
* `C80_gauss_output_run`
* `C80_ilrma_call_f`
* `C80_ilrma_call_o`
* `C80_ilrma_filter_run`
* `C80_ilrma_output_run`
* `C80_output_run`
* `C80_partitioned_filter_run`
* `C80_partitioned_output_run`
* cases that meet the hypotheses: `C80_instance`

### C81 — Observations without full rank are rejected (proved)

Source: `ssspy/bss/_update_spatial_model.py:61-78`, `ssspy/bss/_update_spatial_model.py:348-395`, `ssspy/bss/iva.py:2179-2204`, `ssspy/bss/ilrma.py:1934-1979`.  Model: `AuxFDICA.v`, `AuxIVA.v`, `AuxIVACall.v`, `AuxIVARun.v`, `Eigh.v`, `Ilrma.v`, `IlrmaRun.v`, `NpLin.v`, `Scale.v`, `SpatialIP.v`, `SpatialIP2.v`, `SpatialISS.v`, `SpatialISS2.v`, `Special.v`.  Theorems in `Prop_Rank.v`.

in exact arithmetic, where a singular system is recognised as singular; IPA is not included

* `C81_call_gauss`
* `C81_call_gauss_output`
* `C81_call_laplace`
* `C81_call_output`: a complete call with projection back, any number of iterations, even none; any contrast function
* `C81_fdica_run`: AuxFDICA
* `C81_few_frames`: fewer frames than channels
* `C81_filter_run`
* `C81_filter_update`
* `C81_gauss_filter_run`
* `C81_gauss_output_run`
* `C81_ilrma_filter`
* `C81_ilrma_output`
* `C81_laplace_ip1_iff`
* `C81_laplace_iss1_iff`
* `C81_output_run`
* `C81_partitioned_filter`
* `C81_partitioned_output`
* cases that meet the hypotheses: `C81_instance`

### C82 — ILRMA's normalisation only changes the parametrisation, and a call follows the gain of every bin (proved)

Source: `ssspy/bss/ilrma.py:333-514`, `ssspy/bss/ilrma.py:820-922`, `ssspy/bss/ilrma.py:1934-1979`.  Model: `AuxIVA.v`, `AuxIVACall.v`, `AuxIVARun.v`, `Eigh.v`, `Ilrma.v`, `IlrmaRun.v`, `NpLin.v`, `Scale.v`, `SpatialIP.v`, `SpatialIP2.v`, `SpatialISS.v`, `SpatialISS2.v`.  Theorems in `Prop_IlrmaGauge.v`.

Whole runs and calls with IP1 and ISS1 for the three classes, all normalisations on either side; the initial bases must follow the gain of the input (with bases that do not, nothing is claimed). IP2/ISS2 are not covered: their eigenvectors are fixed only by the external routine. With partitioning the claim is not made: update_latent renormalises the latent variables without compensating in the bases.

* `C82_call_gain`: a call follows the gain [z i] of every bin, if the initial bases do, and forgets its normalisation
* `C82_call_gain_iff`
* `C82_call_gain_output`
* `C82_call_gain_output_iff`
* `C82_call_normalization`: two calls that differ in their normalisation return the same signals
* `C82_call_normalization_output`
* `C82_normalization`: the normalisation does not change the recorded losses
* `C82_normalization_output`
* `C82_run`: the state of two runs, whatever their normalisations: [X] mixed by [A], the initial filters undoing it and scaled by [a], the initial bases following
* `C82_run_output`
* cases that meet the hypotheses: `C82_instance`

### C83 — ILRMA: recorded losses never increase (proved)

Source: `ssspy/bss/ilrma.py:820-922`, `ssspy/bss/ilrma.py:333-514`.  Model: `AuxIVA.v`, `AuxIVACall.v`, `AuxIVARun.v`, `Eigh.v`, `Ilrma.v`, `IlrmaRun.v`, `NpLin.v`, `Scale.v`, `SpatialIP.v`, `SpatialIP2.v`, `SpatialISS.v`, `SpatialISS2.v`.  Theorems in `Prop_IlrmaLatent.v`, `Prop_IlrmaMono.v`.

whole recorded runs in real arithmetic without flooring; IP1, IP2, ISS1, ISS2, every normalisation; runs that reach a non-finite value are outside (the call fails or records nan); IPA and partitioned models are not covered (for the latter see C49)

* `C83_filter_run`: C83: without flooring, for every class, source algorithm, spatial algorithm and normalisation, the losses recorded by a run of any length that stays finite never increase, and filters and NMF parameters stay invertible and positive
* `C83_output_run`
* `C83_partitioned_filter`: what follows the update of the latent variables in an iteration never increases the loss, whatever the spatial algorithm and the normalisation
* `C83_partitioned_output`
* cases that meet the hypotheses: `C83_instance`, `C83_partitioned_instance`

### C84 — A FastGaussMNMF call completes, never increases its loss and returns signals that sum to the reference channel (proved)

Source: `ssspy/bss/mnmf.py:85-117`, `ssspy/bss/mnmf.py:1174-1303`, `ssspy/bss/mnmf.py:1419-1447`, `ssspy/bss/mnmf.py:666-678`.  Model: `AuxIVA.v`, `AuxIVACall.v`, `AuxIVARun.v`, `Eigh.v`, `Ilrma.v`, `Mnmf.v`, `MnmfRun.v`, `NpLin.v`, `Scale.v`, `SpatialIP.v`, `SpatialIP2.v`.  Theorems in `Prop_MnmfRun.v`.

unconditional completion in real arithmetic; IP1 and IP2 without flooring, IP1 with max_flooring; np.linalg.eigh and cholesky as parameters with satisfiable contracts

* `C84_call`: ... and the returned signals sum to the reference channel in every bin and frame
* `C84_call_state`
* `C84_run`: C84: without flooring, for IP1 and IP2, with and without normalisation, every run completes and the recorded losses never increase
* `C84_run_flooring`: with the flooring function [max_flooring(eps)], [eps] at most 1, and IP1
* cases that meet the hypotheses: `C84_instance`

### C85 — FastGaussMNMF: normalisation has no effect on losses and signals; mixing and gains are followed (proved)

Source: `ssspy/bss/mnmf.py:666-678`, `ssspy/bss/mnmf.py:1174-1303`, `ssspy/bss/mnmf.py:1330-1514`, `ssspy/bss/mnmf.py:1647-1675`.  Model: `AuxIVA.v`, `AuxIVACall.v`, `AuxIVARun.v`, `Eigh.v`, `Ilrma.v`, `Mnmf.v`, `MnmfRun.v`, `NpLin.v`, `Scale.v`, `SpatialIP.v`, `SpatialIP2.v`, `SpatialISS.v`.  Theorems in `Prop_MnmfGauge.v`.

Gauge symmetry of one iteration (Prop_MnmfGauge.v), then runs and calls; IP2 is not covered (its eigenvectors are only determined up to a phase).

* `C85_gain`
* `C85_mixing`: A call on [X] and a call on the recording mixed by [A], the diagonalisers undoing [A], rows multiplied by the gains [a], level moved by [v]: whatever the normalisations, the signals are the images of the first call mixed by [A] and the losses differ by a ...
* `C85_mixing_call`
* `C85_normalization`: the normalisation changes neither signals nor losses
* cases that meet the hypotheses: `C85_instance`

### C86 — GaussMNMF calls that return never increase the loss and return images of the reference channel (proved)

Source: `ssspy/bss/mnmf.py:85-188`, `ssspy/bss/mnmf.py:741-838`, `ssspy/bss/mnmf.py:840-1073`.  Model: `AuxIVA.v`, `AuxIVACall.v`, `AuxIVARun.v`, `Eigh.v`, `GaussRun.v`, `Ilrma.v`, `Mnmf.v`, `NpLin.v`, `Scale.v`, `SpatialIP.v`, `SpatialIP2.v`.  Theorems in `Prop_GaussRun.v`.

Model in GaussRun.v; C64's steps composed along runs. chol_strict (Cholesky raises unless positive definite) is an assumption about numpy, shown satisfiable. C86_spatial_refuted: update_spatial without flooring can raise on a full-rank recording.

* `C86_call`: the returned signals sum to the reference channel; they and the last loss belong to the same parameters; with normalisation the final spatial covariances have unit trace
* `C86_few_frames`: fewer frames than channels: no iteration succeeds
* `C86_partitioned_call`: a partitioned call that returns: the signals sum to the reference channel, the latent variables of every basis sum to one over the sources
* `C86_run`: every run that returns has non-increasing losses
* `C86_run_complete`
* `C86_spatial_refuted`
* cases that meet the hypotheses: `C86_instance`

### C87 — GaussMNMF: normalisation has no effect on losses and signals; mixing and gains are followed (proved)

Source: `ssspy/bss/mnmf.py:391-414`, `ssspy/bss/mnmf.py:741-1016`.  Model: `AuxIVA.v`, `AuxIVACall.v`, `AuxIVARun.v`, `Eigh.v`, `GaussRun.v`, `Ilrma.v`, `Mnmf.v`, `NpLin.v`, `Scale.v`, `SpatialIP.v`, `SpatialIP2.v`, `SpatialISS.v`.  Theorems in `Prop_GaussGauge.v`.

Gauge symmetry of one iteration, uniqueness of the Riccati solution for the spatial update, then runs and calls.

* `C87_gain`
* `C87_mixing`: A call on [X], and one on the recording mixed by [A] with the spatial covariances mixed likewise and level moved by [v]: if the first returns so does the second; whatever the normalisations, the signals are the images of the first mixed by [A] and the losses ...
* `C87_normalization`: the normalisation changes neither signals nor losses, nor whether the call returns
* cases that meet the hypotheses: `C87_instance`

### C88 — What the masks of CACGMM depend on (proved)

Source: `ssspy/bss/cacgmm.py:118-222`, `ssspy/bss/cacgmm.py:508-738`.  Model: `AuxIVA.v`, `Cacgmm.v`, `Eigh.v`, `NpLin.v`, `SpatialISS.v`, `Special.v`.  Theorems in `Prop_CacgmmFree.v`, `Prop_CacgmmGauge.v`.

Gains: when no observation is below the floor before or after. Mixing and definedness without flooring; mixing for alignments that depend on the posteriors only. C67_no_flooring adds monotone losses without flooring.

* `C88_bins`: C88: every bin is processed on its own: any selection of bins (in any order, with repetitions) of the recording and of the initial parameters gives the selection of the results, including parameters and posteriors
* `C88_defined`: C88: without flooring, a recording of full rank without silent frames can be processed for any number of iterations, from positive weights and positive definite covariances
* `C88_frames`: C88: the frames in another order, or the recording played several times, give the same parameters; posteriors and output are rearranged the same way, if the permutation solver finds the same alignment
* `C88_frames_loss`
* `C88_gain`: C88: complex gains of the time-frequency points of the recording, common to the channels, do not change the parameters, the posteriors or success of a call and multiply the output, when the floored norms of the observations follow the gains (in particular ...
* `C88_gain_floor`: C88: the same for the default kind of floor, when no observation is below it before or after
* `C88_mixing`: C88: mixing the channels of every bin by an invertible matrix, with initial covariances mixed the same way (up to positive factors), does not change weights and posteriors, changes the covariances the same way and masks the mixed reference channel, without ...
* `C88_mixing_loss`: ... and shifts all losses by the same constant
* `C88_sources`: C88: relabelling the initial sources, differently in every bin, relabels the results of a call without permutation alignment in the same way and does not change the loss
* `C88_sources_loss`
* cases that meet the hypotheses: `C88_instance`

### C89 — The order of sources, bins, frames and NMF bases is irrelevant (proved)

Source: `ssspy/bss/mnmf.py:109-204`, `ssspy/bss/mnmf.py:741-1073`, `ssspy/bss/mnmf.py:1180-1500`, `ssspy/bss/ilrma.py:820-1005`.  Model: `AuxIVA.v`, `AuxIVACall.v`, `AuxIVARun.v`, `Eigh.v`, `Ilrma.v`, `IlrmaRun.v`, `NpLin.v`, `Scale.v`, `SpatialIP.v`, `SpatialIP2.v`, `SpatialISS.v`, `GaussRun.v`, `Mnmf.v`, `MnmfRun.v`.  Theorems in `Prop_IlrmaOrder.v`, `Prop_MnmfOrder.v`.

The eigensolver and Cholesky factorisation are functions of the matrix alone; flooring is an arbitrary function. The order of sources does matter for ILRMA and AuxIVA, whose filters are updated one after the other, and is not claimed there.

* `C89_fast`
* `C89_fast_run`: C89: FastGaussMNMF (IP1 and IP2, with or without normalisation and flooring)
* `C89_gauss`
* `C89_gauss_run`: C89: GaussMNMF
* `C89_ilrma_call_f`: the separated signals are the same
* `C89_ilrma_call_o`
* `C89_ilrma_filter_run`: C89: every ILRMA class, MM and ME, every spatial update but IPA, every normalisation
* `C89_ilrma_output_run`
* `C89_ilrma_partitioned_filter_run`
* `C89_ilrma_partitioned_output_run`
* `C89_partitioned`
* `C89_partitioned_run`: C89: GaussMNMF with [partitioning=True]
* cases that meet the hypotheses: `C89_instance`, `C89_instance_gauss`

### C90 — Gradient IVA and FDICA do not depend on the order of microphones, bins or frames, and the Gauss model not on frame gains (proved)

Source: `ssspy/bss/iva.py:359-392`, `ssspy/bss/iva.py:764-818`, `ssspy/bss/iva.py:936-988`, `ssspy/bss/iva.py:2417-2441`, `ssspy/bss/iva.py:2583-2652`, `ssspy/bss/iva.py:2905-2974`, `ssspy/bss/fdica.py:402-437`, `ssspy/bss/fdica.py:1332-1355`.  Model: `AuxIVA.v`, `AuxIVACall.v`, `AuxIVARun.v`, `Eigh.v`, `GradLoss.v`, `GradRun.v`, `Gradient.v`, `NpLin.v`, `Scale.v`, `SpatialISS.v`.  Theorems in `Prop_GradRun.v`.

Runs and complete calls are compared exactly; projection back with a fixed reference channel. The silent frame failure is recorded as a disagreement.

* `C90_fdica_call`
* `C90_fdica_channels`
* `C90_fdica_run`
* `C90_frame_gain`: C90: GradGaussIVA and NaturalGradGaussIVA find the same filters whatever the gains of single frames; the output carries the gains and the losses after the first move by a constant
* `C90_frame_gain_call`
* `C90_gauss_call`
* `C90_gauss_channels`
* `C90_gauss_run`
* `C90_laplace_call`: C90: complete calls, when the reference channel is a multiple of a channel of the original
* `C90_laplace_channels`: C90: channels, bins and frames in another order give the separated signals in that order and the same losses; the reference is the same microphone
* `C90_laplace_run`: C90: reordering sources, bins and frames, and mixing (by unitary matrices, for the plain gradient)
* `C90_natural_defined`: C90: with a positive flooring function the updates of NaturalGradLaplaceIVA and NaturalGradLaplaceFDICA never fail, silent frames and singular filters included
* `C90_silent_frame`: C90: one silent frame makes every run of GradGaussIVA and NaturalGradGaussIVA fail at its first update, whatever the [flooring_fn]: the variance is not floored
* `C90_unitary`: mixing by unitary matrices does not change the losses
* cases that meet the hypotheses: `C90_gauss_instance`, `C90_instance`

### C91 — FastIVA and FasterIVA results do not depend on LAPACK's choices, nor on microphone order (proved)

Source: `ssspy/bss/iva.py:466-476`, `ssspy/bss/iva.py:511-550`, `ssspy/bss/iva.py:1102-1136`, `ssspy/bss/iva.py:1150-1207`, `ssspy/bss/iva.py:1306-1340`, `ssspy/bss/iva.py:1354-1400`, `ssspy/transform/whiten.py:55-67`.  Model: `AuxIVA.v`, `AuxIVACall.v`, `AuxIVARun.v`, `Eigh.v`, `FastRun.v`, `Gradient.v`, `NpLin.v`, `Prox.v`, `Scale.v`, `SpatialISS.v`.  Theorems in `Prop_FastRun.v`.

FastRun.v models complete calls on top of Gradient.v (updates) and Scale.v (whitening, projection back). C91_fastiva and C91_fasteriva are the general statement (bins, frames, factors and a unitary change of the microphones whose reference row is a unit vector, two eigh and two svd routines); C91_routines and C91_microphones are its two readings. C91_instance: the hypotheses hold on a concrete recording for every routine meeting the contracts.

* `C91_fasteriva`: C91: FasterIVA
* `C91_fastiva`: C91: FastIVA, with any routines for eigenvectors and singular vectors
* `C91_microphones`: C91: microphones in another order and bins multiplied by factors: the same sources in the same order, at the same reference microphone, times the factors
* `C91_routines`: C91: the routines that compute eigenvectors and singular vectors do not matter
* cases that meet the hypotheses: `C91_instance`

### C92 — PDSBSS results do not depend on the singular value decomposition routine, nor on the order of microphones, bins and frames (proved)

Source: `ssspy/bss/pdsbss.py:127-156`, `ssspy/bss/pdsbss.py:197-219`, `ssspy/bss/proxbss.py:172-203`, `ssspy/bss/proxbss.py:225-255`, `ssspy/linalg/prox.py:62-91`.  Model: `AuxIVA.v`, `AuxIVACall.v`, `AuxIVARun.v`, `Eigh.v`, `GradLoss.v`, `GradRun.v`, `Gradient.v`, `NpLin.v`, `Prox.v`, `ProxBss.v`, `ProxRun.v`, `Scale.v`, `SpatialISS.v`.  Theorems in `Prop_ProxRun.v`.

ProxRun.v models complete calls on top of ProxBss.v. C92_run allows unitary transforms of the microphones besides permutations; C92_call, C92_routines, C92_l1, C92_l21, C92_mask are its readings for complete calls, routines and operators. C92_singular_refuted: the invertibility hypothesis is needed. C92_instance: from the default start the first update is regular for every recording.

* `C92_call`: C92: calls return the same sources in the order of the microphones, at the same reference microphone, and the same losses
* `C92_l1`
* `C92_l21`
* `C92_mask`
* `C92_routines`: C92: the routine that computes singular vectors does not matter
* `C92_run`: C92: runs
* `C92_singular_refuted`
* cases that meet the hypotheses: `C92_instance`

### C93 — ADMMBSS ignores initial filters, starts with zero filters, and otherwise does not depend on order (proved)

Source: `ssspy/bss/admmbss.py:120-150`, `ssspy/bss/admmbss.py:168-218`, `ssspy/bss/admmbss.py:220-257`, `ssspy/bss/proxbss.py:172-203`, `ssspy/bss/proxbss.py:225-255`.  Model: `AuxIVA.v`, `AuxIVACall.v`, `AuxIVARun.v`, `Eigh.v`, `GradLoss.v`, `GradRun.v`, `Gradient.v`, `NpLin.v`, `Prox.v`, `ProxBss.v`, `ProxRun.v`, `Scale.v`, `SpatialISS.v`.  Theorems in `Prop_ProxRun.v`.

C93_filter_ignored, C93_first, C93_first_loss, C93_one_iteration: the first update from the default start; C93_run, C93_call, C93_routines: order and routine; C93_zero_refuted: the routine matters at the zero matrix. C93_instance: a recording on which the hypotheses hold for two iterations and the call succeeds. Calls are modelled with record_loss=False because the second recorded loss is never finite.

* `C93_call`: C93: calls
* `C93_filter_ignored`: C93: an update does not read the demixing filters it replaces: filters handed over by the user have no effect on a run of at least one iteration
* `C93_first`: C93: from the default start the first update returns zero filters, for every recording
* `C93_first_loss`: C93: so the loss recorded after it is not finite, and a call with [n_iter=1] and projection back fails, for every recording
* `C93_one_iteration`
* `C93_routines`: C93: the routine that computes singular vectors does not matter, as long as those of the zero matrix are the unit vectors
* `C93_run`: C93: runs
* `C93_zero_refuted`: C93: otherwise it does matter
* cases that meet the hypotheses: `C93_instance`

### C94 — Calls of the ICA classes do not depend on channel order, channel signs, sample order or the eigenvector routine (proved)

Source: `ssspy/bss/ica.py:59-87`, `ssspy/bss/ica.py:156-189`, `ssspy/bss/ica.py:248-278`, `ssspy/bss/ica.py:383-403`, `ssspy/bss/ica.py:506-554`, `ssspy/bss/ica.py:661-707`, `ssspy/bss/ica.py:801-841`, `ssspy/bss/ica.py:896-915`, `ssspy/transform/whiten.py:40-52`.  Model: `AuxIVARun.v`, `Eigh.v`, `GradLoss.v`, `GradRun.v`, `Gradient.v`, `IcaRun.v`, `NpLin.v`, `Scale.v`, `SpatialISS.v`.  Theorems in `Prop_IcaRun.v`.

Complete recorded runs and calls of the gradient methods and of FastICA (IcaRun.v). The statement for scores that are not odd is refuted with a concrete recording and two correct routines.

* `C94_call`
* `C94_channels`: from the identity matrix, the default: channels in another order and with other signs, samples in another order
* `C94_fast`: two calls of FastICA with any two routines for eigenvectors, the second on the recording multiplied by a factor and an orthogonal matrix and with its samples in another order: there are signs of the whitened channels such that corresponding filters give ...
* `C94_fast_default`: from the identity matrix, the default: the separated signals are the same up to signs
* `C94_fast_white`
* `C94_laplace`
* `C94_natural_start`: the natural gradient only uses the mixture through the signals separated by the first filter
* `C94_parity_refuted`: C94: with a score that is not odd, the signs that the routine for eigenvectors gives to its vectors change more than the signs of the result of FastICA
* `C94_run`: runs from corresponding filters give corresponding filters, and losses that differ by the logarithm of the determinant of the mixing
* cases that meet the hypotheses: `C94_fast_instance`, `C94_laplace_instance`

### C95 — Calls of GaussIPSDTA and TIPSDTA do not depend on mixing, frame order, basis order, basis scale or the eigenvector and Cholesky routines (proved)

Source: `ssspy/bss/ipsdta.py:96-122`, `ssspy/bss/ipsdta.py:341-369`, `ssspy/bss/ipsdta.py:512-576`, `ssspy/bss/ipsdta.py:666-697`, `ssspy/bss/ipsdta.py:820-1227`, `ssspy/bss/ipsdta.py:1335-1869`, `ssspy/bss/_update_spatial_model.py:516-608`.  Model: `AuxIVA.v`, `AuxIVACall.v`, `AuxIVARun.v`, `Eigh.v`, `Ipsdta.v`, `IpsdtaRun.v`, `Mnmf.v`, `NpLin.v`, `Scale.v`, `SpatialISS.v`, `Vcd.v`.  Theorems in `Prop_IpsdtaRun.v`.

Complete calls with the loss recorded, from given filters, bases and activations; minimal distortion principle is not in this model. Order of sources is not covered: the coordinate descent treats the sources one after the other.

* `C95_gauge`
* `C95_gauss`: C95: a complete call on a recording that is mixed in every bin, with frames in another order, from filters, bases and activations in the same order
* `C95_routines`
* `C95_t`
* cases that meet the hypotheses: `C95_instance`, `C95_instance_moves`

## 4. Where the code disagrees with what it documents or with the property

Each item is a theorem ending in `_refuted` with an explicit witness.

* C04: after ISS/ISS1/ISS2/IPA calls `demix_filter` is `None`, so a second call without that keyword raises `TypeError` (`C04_dropped_refuted`); with scale restoration a split run differs from one run (`C04_scale_refuted`); the IPSDTA classes ignore `initial_call` and record the initial loss again (`C04_ipsdta_refuted`).
* C05: FastGaussMNMF keeps and mutates the caller's `spatial` array (`C05_retained_refuted`); references stored by callbacks change under in-place updates (`C05_callback_refuted`).
* C06/C07: one source yields the pair (0, 0); `sequential_pair_selector` does not follow its documented `step` example.
* C09/C12: with `overwrite=True` an array passed twice is permuted twice; the score-based solver with `overwrite=True` leaves the sequence as it was.
* C15/C16: a negative `frame_offset` and an inconsistent `block_align` are not rejected.
* C20: `flooring_fn=None` with a method raises instead of meaning "no flooring".
* C28: for some real cubics the value documented as the largest real root is not one.
* C29/C63/C74: `solve_equation(normalization=True)`, as called by `lqpqm2`, returns a root of the wrong equation unless the largest eigenvalue is 1; `lqpqm2` uses a row instead of a column of eigenvectors in its singular branch; hence `update_by_ipa` is not the minimiser for three or more sources and can increase the auxiliary function for four.
* C33: the default `reference=None` of `minimal_distortion_principle` always fails.  C34: FastIVA with MDP violates the invariance.
* C40, C41, C43, C44, C45, C48: flooring (add_flooring, max_flooring with eps > 1, or an active floor) can increase the cost.
* C47: projection-back normalisation divides by zero when the mixing estimate has a zero reference entry.
* C49, C51, C64: with a partitioning function, renormalising the latent variables or the traces is not compensated and can increase the loss.
* C55: the plain gradient is not equivariant (as documented).
* C57: ADMMBSS solves its least-squares step with the Gram matrix on the wrong side; correct only for white input.
* C58: `record_loss=None` resolves to `True` but never records; masking classes raise `TypeError` when recording.
* C59: the IPSDTA classes accept options they cannot run.
* C61: VCD with `singular_fn` as called by IPSDTA can increase the cost.
* C65: the documented `target="posterior"` of CACGMM's correlation solver raises.
* C66: the plain gradient update with `is_holonomic=False`, the default of GradICA, GradLaplaceICA, GradFDICA and GradLaplaceFDICA, is not a descent direction of the loss those classes report.  (The IVA classes document the same default, but their constructors use `True`.)
* C76, C77: see section 3.
* C70: the default attenuation of the HVA mask is computed on the first call and kept for later calls with another number of sources; a larger negative cepstral coefficient can be removed where a smaller one is kept.
* C86: without flooring, `GaussMNMF.update_spatial` can raise although the recording has full rank and all parameters are positive (definite).
* C90: GradGaussIVA and NaturalGradGaussIVA take a `flooring_fn` but never floor the variance: one silent frame makes the first update divide by zero.
* C92: the proximal operator of -log|det| at a singular matrix depends on the singular vectors the routine happens to choose.
* C93: ADMMBSS never reads the `demix_filter` it is given or initialises; from the default auxiliary and dual variables (zeros) the first update returns zero filters for every recording, so the second recorded loss is infinite and `n_iter=1` with scale restoration raises.
* C94: with a score function that is not odd (the logistic score of the documented FastICA example is one), the result of `FastICA` depends on the signs LAPACK happens to give to the eigenvectors: two correct `eigh` routines give separated signals that differ by more than a sign (`C94_parity_refuted`, one iteration with score y^2 + y^3).
* Others are listed with their property in section 3.


## 5. What of the code is modelled

Modelled:

* `bss/base.py`: constructor, `__call__` protocol, loss recording and callbacks (`Iter.v`, `Objects.v`).
* `bss/_update_spatial_model.py`: all of it (`SpatialIP*.v`, `SpatialISS*.v`, `Ipa.v`, `Vcd.v`, `PsdInv.v`).
* `bss/iva.py`: AuxIVA, AuxLaplaceIVA, AuxGaussIVA (IP, IP1, IP2, ISS, ISS1, ISS2) and their runs; natural/plain gradient updates, the loss they descend, and complete runs and calls with the Laplace and Gauss models (`GradRun.v`); FastIVA, FasterIVA and their complete calls (`FastRun.v`); scale restoration; constructors and dispatch.
* `bss/fdica.py`, `bss/ica.py`: gradient, natural gradient and fixed-point updates and losses; AuxFDICA updates, loss and runs (`AuxFDICA.v`); constructor/dispatch of AuxFDICA; permutation step; complete calls of the classes of ica.py (`IcaRun.v`).
* `bss/ilrma.py`: GaussILRMA, TILRMA, GGDILRMA source and spatial updates, normalisation, loss, dispatch, recorded runs and calls (`IlrmaRun.v`); `bss/mnmf.py`: GaussMNMF and FastGaussMNMF with their calls (`GaussRun.v`, `MnmfRun.v`); `bss/ipsdta.py`: GaussIPSDTA, TIPSDTA with their calls (`IpsdtaRun.v`), block partition; `bss/cacgmm.py`.
* `bss/pdsbss.py`, `bss/admmbss.py`, `bss/proxbss.py` (updates, masks, spectral normalisation, complete calls of PDSBSS and ADMMBSS in `ProxRun.v`), `bss/hva.py` (mask function).
* `algorithm/`, `linalg/`, `special/`, `transform/`, `io/`, `utils/flooring.py`, `utils/select_pair.py`, `bss/_flooring.py`, `bss/_psd.py`, `bss/_select_pair.py`, `bss/_solve_permutation.py`.

Simplified or left out:

* floating point (see section 1), array dtypes other than real/complex, memory layout, performance;
* `tqdm` progress output, warnings (except where a warning is the only signal of non-convergence), `__repr__`, docstrings, plots, notebooks;
* `utils/dataset` (downloads and caches example data);
* `numpy.random`: initial values are arbitrary;
* einsum/axis bookkeeping is read as the index formula it computes.


## 6. Trusted base

* The Coq 8.16.1 kernel (checked again with `coqchk` by `vcheck`) and the installed mathcomp libraries, which are proved
  in Coq and add no axioms.
* The reading of the Python code recorded in the model's comments, and NumPy's documented behaviour of the primitives
  used (contracts above).
* Axioms: only the standard library's.  `ClassicalDedekindReals.sig_forall_dec`, `sig_not_dec` and
  `functional_extensionality_dep` come with `Reals`; `classic` and `constructive_indefinite_description` make `R` a mathcomp
  choice type and choose contract witnesses.  No own axiom, no `Admitted`, no functor or module type, no kernel check disabled.


### How to read seeded/LOG.jsonl

Each line is one wrong program, built once in a scratch copy.

* `first_failure` is the declaration at which a file stopped compiling; Coq does not look at the rest of that file.
* `theorems_failed` are the theorems of unbuilt files whose text mentions that declaration, directly or through other declarations. The dependency is computed on names in the current sources, not by the kernel.
* `theorems_not_reached` were not rebuilt because they come later in a file, or import a file, that stopped. Nothing is known about them for that edit. Earlier versions of the log listed them under `theorems_failed`.
* A failure shows that a proof script no longer goes through. It does not by itself show that the statement became false; some scripts stop at a rewriting step.
* Of 332 edits, 317 are counted as detected, 7 survived and led to a stronger theorem, and 8 are marked `undetermined`: the build broke at a declaration no theorem mentions, or without a located error. Those 8 were not tried again.

`Print Assumptions` of every theorem of MANIFEST.json (the commands are at the end of the `Prop_*.v` files):

* no axioms: C01_counts, C01_protocol, C02_split_run, C03_exception, C03_object_stays_usable, C04_dropped_refuted, C04_ipsdta_refuted, C04_scale_refuted, C05_callback, C05_callback_refuted, C05_history, C05_not_retained, C05_result, C05_retained_refuted, C05_unmodified, C05_valid, C06_count, C06_default_covers, C06_one_source_refuted, C06_sequential, C07_documented_step_refuted, C07_step2_count, C08_combination, C13_roundtrip_float, C13_roundtrip_int16, C13_roundtrip_int8, C13_same_layout, C14_header, C15_negative_count_rejected, C15_negative_offset_refuted, C15_partial_read, C15_read_rest, C16_accepts_only_consistent, C16_block_align_refuted, C17_empty, C18_empty, C19_identity, C20_documented_choice, C20_none_always_fails, C20_none_refuted, C55_gradient_defined, C55_output, C55_relation, C58_accepts, C58_default, C58_masking, C58_masking_accepts, C58_off, C58_recorded, C58_refuted, C59_accepts, C59_contrast, C59_dispatch, C59_ipsdta_refuted, C59_names, C59_normalization, C59_perm, C59_reference, C59_runs, C59_scale, C60_basis_dims, C60_more_blocks_than_bins, C60_no_block, C60_partition, C60_update, C65_keywords, C65_posterior_correlation_refuted, C65_supported.
* `FunctionalExtensionality.functional_extensionality_dep`: C04_continue, C04_dropped, C04_fresh, C04_restart, C55_equivariant, C55_stationary.
* `ClassicalDedekindReals.sig_forall_dec`, `FunctionalExtensionality.functional_extensionality_dep`: C19_add, C19_max_fixed, C19_max_idempotent, C19_max_least, C19_max_monotone.
* `ClassicalDedekindReals.sig_forall_dec`, `ClassicalDedekindReals.sig_not_dec`, `FunctionalExtensionality.functional_extensionality_dep`: C17_distribution, C17_formula, C17_no_overflow, C17_shift, C38_neg_log_rejects, C70_shrink, C70_shrink_refuted.
* `ClassicalDedekindReals.sig_forall_dec`, `ClassicalDedekindReals.sig_not_dec`, `Classical_Prop.classic`, `FunctionalExtensionality.functional_extensionality_dep`: C17_order, C18_bounds, C18_formula, C18_log_softmax, C18_no_overflow, C18_shift, C26_real, C38_neg_log.
* `ClassicalDedekindReals.sig_forall_dec`, `ClassicalEpsilon.constructive_indefinite_description`, `Classical_Prop.classic`, `FunctionalExtensionality.functional_extensionality_dep`: C55_gradient_refuted, C66_real_laplace.
* `ClassicalDedekindReals.sig_forall_dec`, `ClassicalDedekindReals.sig_not_dec`, `ClassicalEpsilon.constructive_indefinite_description`, `Classical_Prop.classic`, `FunctionalExtensionality.functional_extensionality_dep`: C09_alias_refuted, C09_consistent, C09_rejects, C09_rejects_ndim, C09_total, C10_greedy, C11_choice, C11_consistent, C11_local_choice, C11_local_only, C11_rejects, C11_total, C12_corr_no_overwrite, C12_corr_overwrite, C12_score_no_overwrite, C12_score_overwrite_args, C12_score_overwrite_refuted, C12_score_sequence_kept, C21_inv2, C22_eigh2, C22_other_types, C22_type1, C22_type2, C22_type3, C23_invsqrtmh, C23_invsqrtmh_floored, C23_sqrtmh, C24_other_types, C24_type1, C24_type1_symmetric, C24_type2, C24_type3, C25_hermitian, C25_identity, C25_lower_bound, C25_spectrum, C26_agree, C26_complex, C26_negative, C26_principal, C27_complete, C27_general, C27_monic, C27_rejects, C28_general, C28_lqpqm, C28_refuted, C29_exact, C29_floored, C29_limit, C29_normalized, C29_normalized_never, C29_normalized_refuted, C29_normalized_unit, C29_terminates, C29_zero_iterations, C30_data, C30_filter, C30_filter_all, C31_data_sum, C31_idempotent, C31_mixing_row, C31_second_defined, C31_sum, C32_agree, C32_agree_all, C33_default_refuted, C33_defined, C33_idempotent, C33_optimal, C33_scale, C34_fastiva_mdp_refuted, C34_fastiva_projection_back, C34_mdp, C34_mdp_defined, C34_projection_back, C35_complex, C35_real, C35_rejects, C36_complex, C36_real, C36_rejects, C37_l1, C37_l1_zero, C37_l21, C37_l21_zero, C37_zero_step, C38_neg_logdet, C38_singular_vectors, C39_normal_equations, C39_sweep, C40_add_flooring_refuted, C40_large_floor_refuted, C40_row_global_minimum, C40_sweep_monotone, C40_sweep_monotone_identity, C41_flooring_inactive, C41_max_flooring_refuted, C41_normal_equations, C41_pair_global_minimum, C41_sweep_invertible, C41_sweep_monotone, C42_filter, C42_invertible_action, C43_add_flooring_refuted, C43_step_optimal, C43_sweep_identity, C43_sweep_monotone, C44_max_flooring_refuted, C44_step_invertible, C44_step_optimal, C44_sweep_invertible, C44_sweep_monotone, C45_floor_refuted, C45_gauss_ip1, C45_gauss_iss1, C45_ip1, C45_ip1_no_flooring, C45_ip2, C45_ip2_pair, C45_iss1, C45_iss2, C45_laplace_ip1, C45_laplace_iss1, C46_activation, C46_activation_no_flooring, C46_basis, C46_basis_no_flooring, C46_partitioned_activation, C46_partitioned_basis, C47_power, C47_power_latent, C47_power_latent_output, C47_power_output, C47_power_unit, C47_projection_back, C47_projection_back_output, C47_projection_back_refuted, C48_floor_refuted, C48_ip1, C48_iss1, C48_run, C48_spatial_ip1, C48_spatial_ip1_no_flooring, C48_spatial_ip2, C48_spatial_iss1, C48_spatial_iss2, C49_latent_step, C49_latent_sums_to_one, C49_refuted, C50_fast, C50_fast_no_flooring, C50_gauss, C50_gauss_no_flooring, C51_fast, C51_fast_defined, C51_fast_unit, C51_gauss, C51_gauss_defined, C51_partitioning_refuted, C52_activation, C52_activation_no_flooring, C52_basis, C52_basis_no_flooring, C52_diag_ip1, C52_diag_ip1_no_flooring, C52_diag_ip2, C52_once, C52_run, C52_spatial, C53_riccati, C53_riccati_no_flooring, C54_fasteriva, C54_fasteriva_defined, C54_fastica, C54_fastica_fails, C54_fastiva, C54_fastiva_defined, C54_run, C55_same_side, C56_call, C56_call_posterior, C56_defined, C56_parameters, C56_posterior, C56_posterior_defined, C56_unit_input, C57_defined, C57_refuted, C57_whitened, C61_floor_partial, C61_floor_refuted, C61_ip1, C61_monotone, C61_no_flooring_refuted, C61_optimal, C61_uncoupled, C62_bound, C62_default, C62_inverse, C62_singular, C62_to_psd, C63_floor_refuted, C63_floored, C63_limit, C63_never, C63_one, C63_one_singular, C63_refuted, C63_singular_refuted, C63_unit, C64_activation, C64_activation_no_flooring, C64_basis, C64_basis_no_flooring, C64_latent_refuted, C64_latent_simplex, C64_latent_step, C64_once, C64_once_no_flooring, C64_partitioned_activation, C64_partitioned_basis, C64_spatial, C64_spatial_no_flooring, C66_bins, C66_bins_laplace, C66_descent, C66_gauss, C66_gradient, C66_laplace, C66_nonholonomic_refuted, C66_real_descent, C66_real_gradient, C67_loss, C67_no_flooring, C67_normalized, C67_run, C67_unnormalized, C68_admm, C68_admm_defined, C68_l1, C68_l21, C68_loss, C68_pds, C68_pds_defined, C69_admm, C69_pds, C70_attenuation_refuted, C70_bound, C70_default, C70_defined, C70_gain, C70_partition, C70_range, C70_scale, C70_single_bin, C70_wiener, C71_activation, C71_basis, C71_filters, C71_once, C71_run, C72_defined, C72_idempotent, C72_norm, C73_activation, C73_basis, C73_filters, C73_once, C73_run, C74_never, C74_reduction, C74_refuted, C74_three_refuted, C74_two_call, C74_two_defined, C74_two_sources, C74_warning, C75_filter_run, C75_gauss_filter_run, C75_gauss_ip1_floor, C75_gauss_iss1_floor, C75_gauss_output_run, C75_ip1_floor, C75_iss1_floor, C75_laplace_ip1, C75_laplace_iss1, C75_output_run, C76_bound, C76_fails, C76_gain, C76_idempotent, C76_step_size, C76_tight, C77_bins, C77_floor_refuted, C77_ip1_floor, C77_laplace_ip1, C77_loss, C77_loss_defined, C77_permutation, C77_run, C78_gain_fdica, C78_gain_gauss_ip1, C78_gain_gauss_iss1, C78_gain_ip1, C78_gain_iss1, C78_mixing, C78_mixing_gauss, C79_call_fdica, C79_call_gauss_ip1, C79_call_gauss_iss1, C79_call_laplace_ip1, C79_call_laplace_iss1, C79_fdica_run, C79_filter_run, C79_gauss_filter_run, C79_gauss_output_run, C79_ilrma_call_f, C79_ilrma_call_o, C79_ilrma_filter_run, C79_ilrma_output_run, C79_output_run, C79_partitioned_filter_run, C79_partitioned_output_run, C80_call_gauss_ip1, C80_call_gauss_iss1, C80_call_laplace_ip1, C80_call_laplace_iss1, C80_filter_run, C80_gauss_filter_run, C80_gauss_output_run, C80_ilrma_call_f, C80_ilrma_call_o, C80_ilrma_filter_run, C80_ilrma_output_run, C80_output_run, C80_partitioned_filter_run, C80_partitioned_output_run, C81_call_gauss, C81_call_gauss_output, C81_call_laplace, C81_call_output, C81_fdica_run, C81_few_frames, C81_filter_run, C81_filter_update, C81_gauss_filter_run, C81_gauss_output_run, C81_ilrma_filter, C81_ilrma_output, C81_laplace_ip1_iff, C81_laplace_iss1_iff, C81_output_run, C81_partitioned_filter, C81_partitioned_output, C82_call_gain, C82_call_gain_iff, C82_call_gain_output, C82_call_gain_output_iff, C82_call_normalization, C82_call_normalization_output, C82_normalization, C82_normalization_output, C82_run, C82_run_output, C83_filter_run, C83_output_run, C83_partitioned_filter, C83_partitioned_output, C84_call, C84_call_state, C84_run, C84_run_flooring, C85_gain, C85_mixing, C85_mixing_call, C85_normalization, C86_call, C86_few_frames, C86_partitioned_call, C86_run, C86_run_complete, C86_spatial_refuted, C87_gain, C87_mixing, C87_normalization, C88_bins, C88_defined, C88_frames, C88_frames_loss, C88_gain, C88_gain_floor, C88_mixing, C88_mixing_loss, C88_sources, C88_sources_loss, C89_fast, C89_fast_run, C89_gauss, C89_gauss_run, C89_ilrma_call_f, C89_ilrma_call_o, C89_ilrma_filter_run, C89_ilrma_output_run, C89_ilrma_partitioned_filter_run, C89_ilrma_partitioned_output_run, C89_partitioned, C89_partitioned_run, C90_fdica_call, C90_fdica_channels, C90_fdica_run, C90_frame_gain, C90_frame_gain_call, C90_gauss_call, C90_gauss_channels, C90_gauss_run, C90_laplace_call, C90_laplace_channels, C90_laplace_run, C90_natural_defined, C90_silent_frame, C90_unitary, C91_fasteriva, C91_fastiva, C91_microphones, C91_routines, C92_call, C92_l1, C92_l21, C92_mask, C92_routines, C92_run, C92_singular_refuted, C93_call, C93_filter_ignored, C93_first, C93_first_loss, C93_one_iteration, C93_routines, C93_run, C93_zero_refuted, C94_call, C94_channels, C94_fast, C94_fast_default, C94_fast_white, C94_laplace, C94_natural_start, C94_parity_refuted, C94_run, C95_gauge, C95_gauss, C95_routines, C95_t.
