{"id": "C01", "title": "Iteration protocol: number and order of updates, losses and callbacks", "statement": "Running an iterative separation method for n_iter iterations performs exactly n_iter updates; when loss recording is on, the loss list grows by exactly n_iter entries (n_iter+1 with initial_call=True), the k-th new entry is the loss of the state reached after the k-th update (before the callbacks of that iteration run); every registered callback runs once per iteration (plus once initially when initial_call=True), in registration order, after the loss of that iteration was appended; with record_loss=False the loss is never computed and the loss attribute stays None.", "quantifier": "every method state, update function, loss function, finite list of (state-mutating) callbacks, n_iter and initial_call flag", "why_tests_cant": "Update, loss and callbacks are arbitrary user or subclass code and n_iter is unbounded; tests only check a few n_iter values with one callback.", "anchors": ["ssspy/bss/base.py: IterativeMethodBase.__init__, IterativeMethodBase.__call__"]}
{"id": "C02", "title": "Split runs equal one long run", "statement": "Running the iteration loop for a iterations and then for b more with initial_call=False leaves the same state, the same loss list and the same sequence of observable events (loss evaluations, callback calls) as one run of a+b iterations.", "quantifier": "every a, b, method state, update/loss functions and callback list", "why_tests_cant": "Requires quantifying over every split point and over arbitrary update functions.", "anchors": ["ssspy/bss/base.py: IterativeMethodBase.__call__"]}
{"id": "C03", "title": "A failure inside an iteration leaves exactly the progress made before it", "statement": "If the update, the loss computation or a callback raises at some iteration, the exception reaches the caller, no later update, loss evaluation or callback happens, and the loss list contains exactly the losses of the iterations completed before the failing step.", "quantifier": "every failing position (update, loss or any callback of any iteration) and every method", "why_tests_cant": "The failure point is a crash point: unboundedly many positions.", "anchors": ["ssspy/bss/base.py: IterativeMethodBase.__call__"]}
{"id": "C04", "title": "Re-using a separation object continues from the retained demixing filter", "statement": "A separation object can be called again: the second call starts from the demixing filter (and source/spatial parameters) left by the first, and with scale restoration and permutation alignment switched off, a call with a iterations followed by a call with b iterations and initial_call=False gives the same output, parameters, loss list and exception as one call with a+b iterations. A call that passes the initial values of all parameters does not depend on what was done with the object before. (Holds for the methods that keep their filter; fails for ISS, ISS1, ISS2 and IPA, where the second call raises TypeError, with the default scale restoration, and for the loss list of the IPSDTA classes, which ignore initial_call.)", "quantifier": "every sequence of calls on one object, every spatial algorithm", "why_tests_cant": "Property of a call history; tests construct a fresh object for every call.", "anchors": ["ssspy/bss/iva.py: IVABase._reset, AuxIVA._reset, AuxIVA.__call__", "ssspy/bss/ilrma.py: ILRMABase._reset, GaussILRMA._reset", "ssspy/bss/fdica.py: AuxFDICA._reset"]}
{"id": "C05", "title": "Caller-owned arrays are never modified by a separation call", "statement": "No array that exists when a separation object is called is modified by the call, whether it returns or raises: neither the mixture, nor the arrays passed as keyword arguments, nor the arrays returned by earlier calls, although some updates write into attributes in place. The returned array is a new one, and afterwards the object holds no reference to an array of the caller (fails for FastGaussMNMF's spatial). An array that a callback stored stays unchanged during the following iterations (fails for the algorithms that update the filter in place).", "quantifier": "every heap layout (including aliased arguments), every number of iterations and every in-place/out-of-place update", "why_tests_cant": "Aliasing property over all heaps and histories.", "anchors": ["ssspy/bss/iva.py: AuxIVA.__call__, IVABase._reset, AuxIVA.update_once_ip2", "ssspy/bss/_update_spatial_model.py: update_by_ip1, update_by_ip2"]}
{"id": "C06", "title": "Sequential pair selector yields valid, distinct, covering pairs", "statement": "For n_sources >= 2 the sequential pair selector yields n_sources pairs by default (the documented pairs (k, k+1 mod n)), every pair consists of two different source indices in range, every source index appears, with sort=True the first component is smaller than the second, and each pair is, as a set, the same with or without sort; with a custom stop and positive step it yields ceil(stop/step) pairs.", "quantifier": "every n_sources, stop, step and sort flag", "why_tests_cant": "Unbounded integers.", "anchors": ["ssspy/utils/select_pair.py: sequential_pair_selector"]}
{"id": "C07", "title": "Sequential pair selector follows its documented step example", "statement": "As documented, sequential_pair_selector(n_sources=6, step=2, sort=False) yields 0,1 2,3 4,5 0,1 2,3 4,5. (The code yields only three pairs: expected to be refuted.)", "quantifier": "the documented argument values; and every even n_sources with step=2", "why_tests_cant": "The documentation promises one sequence, no test compares the two.", "anchors": ["ssspy/utils/select_pair.py: sequential_pair_selector (docstring and body)"]}
{"id": "C08", "title": "Combination pair selector yields every unordered pair exactly once", "statement": "The combination pair selector yields every pair (m, n) with 0 <= m < n < n_sources exactly once and nothing else, n(n-1)/2 pairs in total, in lexicographic order, whatever the sort flag.", "quantifier": "every n_sources and sort flag", "why_tests_cant": "Unbounded n_sources.", "anchors": ["ssspy/utils/select_pair.py: combination_pair_selector"]}
{"id": "C09", "title": "Correlation-based permutation alignment only permutes sources within each frequency bin", "statement": "The correlation-based permutation solver returns, for every frequency bin, a rearrangement of that bin's source rows; the very same rearrangement is applied to every extra argument; the contents of the rows are untouched; shapes that disagree are rejected before anything is modified.", "quantifier": "every number of bins, sources, frames, every data and every list of extra arguments", "why_tests_cant": "The domain is infinite (all sizes and all real/complex values); a test samples finitely many arrays and compares with a tolerance.", "anchors": ["ssspy/algorithm/permutation_alignment.py: correlation_based_permutation_solver"]}
{"id": "C10", "title": "Correlation-based alignment picks the best permutation greedily", "statement": "In each processed bin, the applied permutation maximises, among all permutations of the sources, the correlation between the bin's normalised amplitudes and the accumulated reference; ties are resolved to the first permutation in lexicographic order; bins are processed in order of increasing inter-source correlation and each bin is processed exactly once.", "quantifier": "every data array and every permutation compared", "why_tests_cant": "The domain is infinite (all sizes and all real/complex values); a test samples finitely many arrays and compares with a tolerance.", "anchors": ["ssspy/algorithm/permutation_alignment.py: correlation_based_permutation_solver"]}
{"id": "C11", "title": "Score-based permutation alignment only permutes sources within each bin, consistently", "statement": "For every number of global and local iterations the score-based permutation solver returns, for every bin, a rearrangement of that bin's source rows, and the same rearrangement is applied to all extra arguments. In a global iteration the permutation of each bin is the lexicographically first one with the largest score against the centroid, in a local iteration against the neighbouring and harmonic bins.", "quantifier": "every data, every global_iter >= 1 and local_iter", "why_tests_cant": "The domain is infinite (all sizes and all real/complex values); a test samples finitely many arrays and compares with a tolerance.", "anchors": ["ssspy/algorithm/permutation_alignment.py: score_based_permutation_solver, _parallel_sort"]}
{"id": "C12", "title": "overwrite flag of the permutation solvers", "statement": "With overwrite=False no argument array is modified; with overwrite=True the argument arrays themselves end up holding the returned values. (For the score-based solver the main sequence is expected to violate the second half.)", "quantifier": "every data and flag value", "why_tests_cant": "Aliasing property over all inputs.", "anchors": ["ssspy/algorithm/permutation_alignment.py: correlation_based_permutation_solver, score_based_permutation_solver"]}
{"id": "C13", "title": "WAV write then read returns the written samples", "statement": "Reading back a file produced by wavwrite returns the same sample rate and, sample by sample, the integer value stored divided by 2^15 (or 2^7 for 8-bit): for int16/int8 input the values x/32768 (x/128) exactly, for 1 or 2 channels, with the channel layout requested by channels_first on both sides.", "quantifier": "every waveform (any length, 1 or 2 channels, any 16-bit or 8-bit values), any sample rate that fits the header and is positive", "why_tests_cant": "Round trip over all byte strings.", "anchors": ["ssspy/io/__init__.py: wavread, wavwrite, _write_fmt_chunk, _write_data_chunk, _read_fmt_chunk, _read_data_chunk"]}
{"id": "C14", "title": "WAV header written is consistent", "statement": "The file written is a RIFF/WAVE file whose size field equals the file length minus 8, whose data chunk size equals the number of sample bytes, and whose byte rate, block align and bits per sample agree with the channel count and sample rate.", "quantifier": "every accepted waveform and sample rate", "why_tests_cant": "The domain is infinite (all sizes and all real/complex values); a test samples finitely many arrays and compares with a tolerance.", "anchors": ["ssspy/io/__init__.py: wavwrite, _write_fmt_chunk, _write_data_chunk"]}
{"id": "C15", "title": "Partial WAV reads return exactly the requested slice", "statement": "Reading with frame_offset and num_frames returns exactly frames frame_offset .. frame_offset+num_frames-1 of the full read; requests that end past the last frame, and negative num_frames, are rejected.", "quantifier": "every file, offset and count", "why_tests_cant": "The domain is infinite (all sizes and all real/complex values); a test samples finitely many arrays and compares with a tolerance.", "anchors": ["ssspy/io/__init__.py: wavread, _read_data_chunk"]}
{"id": "C16", "title": "WAV reader accepts only PCM files with a consistent header", "statement": "Whenever wavread returns data, the file starts with RIFF, contains WAVE, a 16-byte PCM fmt chunk with 8*byte_rate = bits*rate*channels, directly followed by the data chunk; every other byte string of any length is rejected with an error (never mis-decoded).", "quantifier": "every byte string", "why_tests_cant": "All byte strings.", "anchors": ["ssspy/io/__init__.py: wavread, _read_fmt_chunk"]}
{"id": "C17", "title": "softmax returns a probability vector and is shift invariant", "statement": "The softmax output is strictly positive, sums to one along the axis, equals exp(x_k)/sum exp(x_l), and is unchanged when a constant is added to all inputs; the exponential is only ever applied to non-positive arguments, so inputs of any magnitude cause no overflow.", "quantifier": "every non-empty real vector and every shift", "why_tests_cant": "The domain is infinite (all sizes and all real/complex values); a test samples finitely many arrays and compares with a tolerance.", "anchors": ["ssspy/special/softmax.py: softmax"]}
{"id": "C18", "title": "logsumexp equals the logarithm of the sum of exponentials", "statement": "logsumexp(x) = log(sum exp(x_k)) exactly, it lies between max(x) and max(x)+log(length), and adding a constant to every input adds it to the output; the exponential is only applied to non-positive arguments, so it cannot overflow.", "quantifier": "every non-empty real vector", "why_tests_cant": "The domain is infinite (all sizes and all real/complex values); a test samples finitely many arrays and compares with a tolerance.", "anchors": ["ssspy/special/logsumexp.py: logsumexp"]}
{"id": "C19", "title": "Flooring functions bound their output from below", "statement": "max_flooring(x, eps) is the least value that is >= x and >= eps, is idempotent and monotone; add_flooring adds eps; identity changes nothing.", "quantifier": "every real x and eps", "why_tests_cant": "The domain is infinite (all sizes and all real/complex values); a test samples finitely many arrays and compares with a tolerance.", "anchors": ["ssspy/special/flooring.py: identity, max_flooring, add_flooring"]}
{"id": "C20", "title": "Choice of flooring function per update", "statement": "update methods documented as 'flooring_fn=None uses the identity function, \"self\" uses self.flooring_fn' use exactly that function. (With None and a method object the code raises an AssertionError: expected to be refuted.)", "quantifier": "every flooring_fn argument and every method object", "why_tests_cant": "All combinations of arguments and objects.", "anchors": ["ssspy/utils/flooring.py: choose_flooring_fn"]}
{"id": "C21", "title": "inv2 inverts every invertible 2x2 matrix", "statement": "For every 2x2 matrix with non-zero determinant the returned matrix is its two-sided inverse (and hence equals the general inverse).", "quantifier": "every 2x2 complex matrix", "why_tests_cant": "The domain is infinite (all sizes and all real/complex values); a test samples finitely many arrays and compares with a tolerance.", "anchors": ["ssspy/linalg/inv.py: inv2"]}
{"id": "C22", "title": "Generalised Hermitian eigen-decomposition solves its defining equation", "statement": "For Hermitian A and positive definite B, eigh/eigh2 return eigenvalues lambda and vectors Z with A Z = B Z diag(lambda) (type 1), A B Z = Z diag(lambda) (type 2), B A Z = Z diag(lambda) (type 3), with Z^H B Z = I for types 1 and 2 and Z^H B^{-1} Z = I for type 3, Z invertible; the eigenvalues are in the order returned by the standard eigen-solver; other types are rejected.", "quantifier": "every size, Hermitian A and positive definite B", "why_tests_cant": "The domain is infinite (all sizes and all real/complex values); a test samples finitely many arrays and compares with a tolerance.", "anchors": ["ssspy/linalg/eigh.py: eigh, eigh2, _eigh"]}
{"id": "C23", "title": "Matrix square root and inverse square root", "statement": "For positive semidefinite X, sqrtmh(X) is Hermitian positive semidefinite and squares to X; for positive definite X, invsqrtmh(X) is Hermitian positive definite and satisfies S X S = I, S S = X^{-1}; with a flooring function the eigenvalues of the result are bounded by the inverse floor.", "quantifier": "every size and every PSD/PD matrix", "why_tests_cant": "The domain is infinite (all sizes and all real/complex values); a test samples finitely many arrays and compares with a tolerance.", "anchors": ["ssspy/linalg/sqrtm.py: sqrtmh, invsqrtmh"]}
{"id": "C24", "title": "Geometric mean of positive definite matrices", "statement": "gmeanmh(A, B, type) returns the Hermitian positive definite matrix G with G A^{-1} G = B (type 1), G A G = B (type 2: mean of A^{-1} and B), G B G = A (type 3: mean of A and B^{-1}); the type 1 mean is symmetric in A and B.", "quantifier": "every size and all positive definite A, B", "why_tests_cant": "The domain is infinite (all sizes and all real/complex values); a test samples finitely many arrays and compares with a tolerance.", "anchors": ["ssspy/linalg/mean.py: gmeanmh"]}
{"id": "C25", "title": "to_psd returns a Hermitian matrix with floored spectrum and leaves well-conditioned input unchanged", "statement": "to_psd(X) is Hermitian, x^H to_psd(X) x >= eps ||x||^2 for every x when the floor is max_flooring(eps), and to_psd(X) = X whenever X is Hermitian with all eigenvalues >= eps.", "quantifier": "every size, matrix, eps", "why_tests_cant": "The domain is infinite (all sizes and all real/complex values); a test samples finitely many arrays and compares with a tolerance.", "anchors": ["ssspy/special/psd.py: to_psd"]}
{"id": "C26", "title": "cbrt returns a cube root and the real one for real input", "statement": "cbrt(x)^3 = x for every real and complex x; for real input the result is the real cube root.", "quantifier": "every real and complex number", "why_tests_cant": "The domain is infinite (all sizes and all real/complex values); a test samples finitely many arrays and compares with a tolerance.", "anchors": ["ssspy/linalg/cubic.py: cbrt"]}
{"id": "C27", "title": "solve_cubic returns all three roots", "statement": "For every complex A != 0, B, C, D, the three returned values x1, x2, x3 satisfy A(x-x1)(x-x2)(x-x3) = A x^3 + B x^2 + C x + D for every x (so they are all the roots with multiplicity); a zero leading coefficient is rejected; all=False returns one of them.", "quantifier": "all complex coefficients", "why_tests_cant": "The domain is infinite (all sizes and all real/complex values); a test samples finitely many arrays and compares with a tolerance.", "anchors": ["ssspy/linalg/polynomial.py: solve_cubic, _find_cubic_roots"]}
{"id": "C28", "title": "Largest-root finder of the LQPQM cubic", "statement": "For the cubic (x-phi)^2 (x-z) - phi |v|^2 x^2 built by the LQPQM solver, _find_largest_root returns its largest real root. (For general real coefficients the function is expected not to return a root.)", "quantifier": "all phi > 0, v != 0, z >= 0; all real coefficients", "why_tests_cant": "The domain is infinite (all sizes and all real/complex values); a test samples finitely many arrays and compares with a tolerance.", "anchors": ["ssspy/linalg/lqpqm.py: _find_largest_root, solve_equation"]}
{"id": "C29", "title": "Secular equation solver of LQPQM", "statement": "When the Newton iteration converges, the value returned by solve_equation is the root of f(lambda) = lambda^2 sum phi|v|^2/(lambda-phi)^2 - lambda + z that exceeds max phi; the root in that range is unique and all Newton iterates stay in that range. (With normalization=True and max phi != 1 the returned value is expected not to be a root.)", "quantifier": "all phi, v, z, iteration counts", "why_tests_cant": "The domain is infinite (all sizes and all real/complex values); a test samples finitely many arrays and compares with a tolerance.", "anchors": ["ssspy/linalg/lqpqm.py: solve_equation, _fn, _d_fn"]}
{"id": "C30", "title": "Projection back is invariant to the scale of each separated source", "statement": "Projection back applied to a demixing filter returns the same result when each row of the filter (each source) is multiplied by an arbitrary non-zero complex gain; likewise for separated signals in the data form.", "quantifier": "every invertible filter / full-rank signals, every reference channel, every non-zero gains", "why_tests_cant": "The domain is infinite (all sizes and all real/complex values); a test samples finitely many arrays and compares with a tolerance.", "anchors": ["ssspy/algorithm/projection_back.py: projection_back"]}
{"id": "C31", "title": "Projection back is idempotent and preserves the reference channel", "statement": "After projection back the separated signals sum up to the reference channel of the mixture, the mixing matrix implied by the filter has an all-one reference row, and applying projection back again changes nothing.", "quantifier": "every invertible filter, mixture and reference channel", "why_tests_cant": "The domain is infinite (all sizes and all real/complex values); a test samples finitely many arrays and compares with a tolerance.", "anchors": ["ssspy/algorithm/projection_back.py: projection_back", "ssspy/bss/iva.py: IVABase.apply_projection_back"]}
{"id": "C32", "title": "Filter form and data form of projection back agree", "statement": "For Y = W X with W invertible and X of full row rank, projection back of the signals Y with reference X equals the signals separated by the projected-back filter, for every reference channel and for reference_id=None.", "quantifier": "every W, X, reference channel", "why_tests_cant": "The domain is infinite (all sizes and all real/complex values); a test samples finitely many arrays and compares with a tolerance.", "anchors": ["ssspy/algorithm/projection_back.py: projection_back"]}
{"id": "C33", "title": "Minimal distortion principle is the optimal scaling", "statement": "The output of the minimal distortion principle is, per source and bin, the complex scaling of the estimate with minimal squared distance to the reference channel; it is invariant to rescaling the estimate and idempotent.", "quantifier": "every non-zero estimate, reference, scaling", "why_tests_cant": "The domain is infinite (all sizes and all real/complex values); a test samples finitely many arrays and compares with a tolerance.", "anchors": ["ssspy/algorithm/minimal_distortion_principle.py: minimal_distortion_principle"]}
{"id": "C34", "title": "Demixing filter recomputed after minimal distortion reproduces the scaled output", "statement": "After scale restoration by the minimal distortion principle the stored demixing filter applied to the input gives exactly the stored output.", "quantifier": "every full-row-rank mixture and invertible filter", "why_tests_cant": "The domain is infinite (all sizes and all real/complex values); a test samples finitely many arrays and compares with a tolerance.", "anchors": ["ssspy/bss/iva.py: IVABase.apply_minimal_distortion_principle", "ssspy/bss/ilrma.py: ILRMABase.apply_minimal_distortion_principle"]}
{"id": "C35", "title": "Whitened signals have identity covariance", "statement": "whiten(X) has sample covariance equal to the identity in every bin whenever the sample covariance of X is invertible, for real and complex input; inputs of unsupported dimension or type are rejected.", "quantifier": "every input with non-singular covariance", "why_tests_cant": "The domain is infinite (all sizes and all real/complex values); a test samples finitely many arrays and compares with a tolerance.", "anchors": ["ssspy/transform/whiten.py: whiten"]}
{"id": "C36", "title": "PCA output is uncorrelated, energy preserving and ordered", "statement": "pca(X) has a diagonal sample covariance whose entries are the eigenvalues of the covariance of X, in the order selected by ascend, and preserves the total energy of every frame.", "quantifier": "every input", "why_tests_cant": "The domain is infinite (all sizes and all real/complex values); a test samples finitely many arrays and compares with a tolerance.", "anchors": ["ssspy/transform/pca.py: pca"]}
{"id": "C37", "title": "Proximal operators of the l1 and l2,1 norms", "statement": "prox.l1(x, mu) minimises mu*|z| + |z-x|^2/2 over all complex z; prox.l21 does so for the group norm; both are the zero vector exactly when the (group) norm is at most mu.", "quantifier": "every complex x / group and mu > 0", "why_tests_cant": "The domain is infinite (all sizes and all real/complex values); a test samples finitely many arrays and compares with a tolerance.", "anchors": ["ssspy/linalg/prox.py: l1, l21"]}
{"id": "C38", "title": "Proximal operator of the negative log(-determinant)", "statement": "prox.neg_log(x, mu) is positive and minimises -mu*log z + (z-x)^2/2 over z > 0; prox.neg_logdet(X, mu) is invertible, keeps the singular vectors of X, and satisfies the stationarity condition Z - mu Z^{-H} = X.", "quantifier": "every x >= 0, mu > 0, every square X", "why_tests_cant": "The domain is infinite (all sizes and all real/complex values); a test samples finitely many arrays and compares with a tolerance.", "anchors": ["ssspy/linalg/prox.py: neg_log, neg_logdet"]}
{"id": "C39", "title": "IP1 update: normal equations and locality", "statement": "After updating source n by IP1 the new filter row satisfies w_n^H U_n w_n = 1 and is U_n-orthogonal to all other rows, the other rows are unchanged, and the filter stays invertible; the sweep over all sources keeps the filter invertible.", "quantifier": "every invertible filter and positive definite weighted covariances, every number of sources and bins", "why_tests_cant": "The domain is infinite (all sizes and all real/complex values); a test samples finitely many arrays and compares with a tolerance.", "anchors": ["ssspy/bss/_update_spatial_model.py: update_by_ip1"]}
{"id": "C40", "title": "IP1 never increases the auxiliary cost", "statement": "A full IP1 sweep never increases sum_n w_n^H U_n w_n - 2 log|det W|, and each row update is the global minimiser over that row; this remains true with max_flooring for every eps <= 1.", "quantifier": "every invertible W, positive definite U_n, eps", "why_tests_cant": "The domain is infinite (all sizes and all real/complex values); a test samples finitely many arrays and compares with a tolerance.", "anchors": ["ssspy/bss/_update_spatial_model.py: update_by_ip1"]}
{"id": "C41", "title": "IP2 pairwise update: stationarity and global optimality over the pair", "statement": "The IP2 update of a pair of rows satisfies the IP stationarity conditions for both rows, leaves the other rows unchanged, and no other choice of the two rows gives a smaller auxiliary cost.", "quantifier": "every invertible W, positive definite U_m, U_n, every pair of different sources", "why_tests_cant": "The domain is infinite (all sizes and all real/complex values); a test samples finitely many arrays and compares with a tolerance.", "anchors": ["ssspy/bss/_update_spatial_model.py: update_by_ip2, update_by_ip2_one_pair"]}
{"id": "C42", "title": "ISS1 update acts as an invertible demixing update", "statement": "One ISS1 sweep multiplies the separated signals in every bin by an invertible matrix, so the output stays of the form W' X with W' invertible if W was.", "quantifier": "every signals and weights with positive weighted powers", "why_tests_cant": "The domain is infinite (all sizes and all real/complex values); a test samples finitely many arrays and compares with a tolerance.", "anchors": ["ssspy/bss/_update_spatial_model.py: update_by_iss1"]}
{"id": "C43", "title": "ISS1 never increases the auxiliary cost", "statement": "A full ISS1 sweep never increases sum_n mean(phi_n |y_n|^2) - 2 log|det W|; with max_flooring(eps), eps <= 1, it holds without any condition on the weighted powers.", "quantifier": "every signals, non-negative weights, eps in (0,1]", "why_tests_cant": "The domain is infinite (all sizes and all real/complex values); a test samples finitely many arrays and compares with a tolerance.", "anchors": ["ssspy/bss/_update_spatial_model.py: update_by_iss1"]}
{"id": "C44", "title": "ISS2 pairwise update never increases the auxiliary cost", "statement": "The ISS2 update for a pair multiplies the signals by an invertible matrix and never increases the auxiliary cost; the source order is preserved whether m<n or m>n.", "quantifier": "every signals, weights and pair", "why_tests_cant": "The domain is infinite (all sizes and all real/complex values); a test samples finitely many arrays and compares with a tolerance.", "anchors": ["ssspy/bss/_update_spatial_model.py: update_by_iss2"]}
{"id": "C45", "title": "AuxIVA with IP1 never increases its loss", "statement": "For the Laplace and Gauss contrast functions (and any contrast satisfying the super-Gaussian majorisation), one AuxIVA IP1 update never increases the loss reported by compute_loss.", "quantifier": "every mixture with positive definite weighted covariances and every invertible filter", "why_tests_cant": "The domain is infinite (all sizes and all real/complex values); a test samples finitely many arrays and compares with a tolerance.", "anchors": ["ssspy/bss/iva.py: AuxIVA.update_once_ip1, AuxLaplaceIVA, AuxGaussIVA, IVABase.compute_loss"]}
{"id": "C46", "title": "NMF source-model updates of ILRMA never increase the loss", "statement": "The MM updates of basis and activation in Gauss-, t- and GGD-ILRMA never increase the loss, for every domain parameter p in (0,2]; with max_flooring(eps) this holds as long as the current parameters are >= eps, which the updates preserve.", "quantifier": "every non-negative data, positive parameters, p, dof, beta, sizes", "why_tests_cant": "The domain is infinite (all sizes and all real/complex values); a test samples finitely many arrays and compares with a tolerance.", "anchors": ["ssspy/bss/ilrma.py: GaussILRMA.update_basis_mm, update_activation_mm, TILRMA, GGDILRMA, compute_loss"]}
{"id": "C47", "title": "ILRMA normalisation does not change the likelihood", "statement": "Power normalisation and projection-back normalisation rescale filter, basis (and latent variables) without changing the ILRMA loss or, for power normalisation, the ratio |y|^2/r.", "quantifier": "every state with positive normalisers", "why_tests_cant": "The domain is infinite (all sizes and all real/complex values); a test samples finitely many arrays and compares with a tolerance.", "anchors": ["ssspy/bss/ilrma.py: ILRMABase.normalize_by_power, normalize_by_projection_back"]}
{"id": "C48", "title": "One GaussILRMA iteration never increases the loss", "statement": "A complete GaussILRMA update_once (MM source model, IP1 spatial model, power normalisation) never increases the loss.", "quantifier": "every admissible state", "why_tests_cant": "The domain is infinite (all sizes and all real/complex values); a test samples finitely many arrays and compares with a tolerance.", "anchors": ["ssspy/bss/ilrma.py: GaussILRMA.update_once"]}
{"id": "C49", "title": "Latent-variable update of partitioned ILRMA", "statement": "With partitioning=True the latent-variable update keeps the latent variables non-negative with columns summing to one. (It is not guaranteed to decrease the loss because the renormalisation is not compensated: expected to be refuted.)", "quantifier": "every positive parameters", "why_tests_cant": "The domain is infinite (all sizes and all real/complex values); a test samples finitely many arrays and compares with a tolerance.", "anchors": ["ssspy/bss/ilrma.py: GaussILRMA.update_latent_mm"]}
{"id": "C50", "title": "Multichannel NMF separation is consistent", "statement": "The separated sources of GaussMNMF (and FastGaussMNMF) sum to the reference channel of the mixture whenever no eigenvalue flooring is active.", "quantifier": "every positive definite spatial model, parameters and mixture", "why_tests_cant": "The domain is infinite (all sizes and all real/complex values); a test samples finitely many arrays and compares with a tolerance.", "anchors": ["ssspy/bss/mnmf.py: GaussMNMF.separate, FastGaussMNMF.separate"]}
{"id": "C51", "title": "MNMF normalisation preserves the model", "statement": "The trace normalisation of GaussMNMF (without partitioning) and the power normalisation of FastGaussMNMF leave the reconstructed covariances (hence loss) unchanged; after the former every spatial covariance has unit trace.", "quantifier": "every state", "why_tests_cant": "The domain is infinite (all sizes and all real/complex values); a test samples finitely many arrays and compares with a tolerance.", "anchors": ["ssspy/bss/mnmf.py: MNMF.normalize, FastMNMFBase.normalize_by_power"]}
{"id": "C52", "title": "FastMNMF parameter updates never increase the loss", "statement": "The basis, activation, spatial and diagonaliser updates of FastGaussMNMF never increase its loss.", "quantifier": "every positive parameters and invertible diagonaliser", "why_tests_cant": "The domain is infinite (all sizes and all real/complex values); a test samples finitely many arrays and compares with a tolerance.", "anchors": ["ssspy/bss/mnmf.py: FastGaussMNMF.update_basis, update_activation, update_spatial, update_diagonalizer_ip1, compute_loss"]}
{"id": "C53", "title": "GaussMNMF spatial update solves its Riccati equation", "statement": "The spatial update of GaussMNMF returns, when no flooring is active, the positive definite H with H P H = H_old Q H_old.", "quantifier": "every positive definite P, Q, H_old", "why_tests_cant": "The domain is infinite (all sizes and all real/complex values); a test samples finitely many arrays and compares with a tolerance.", "anchors": ["ssspy/bss/mnmf.py: GaussMNMF.update_spatial"]}
{"id": "C54", "title": "FastICA/FastIVA filters are unitary after every update", "statement": "After every FastICA-type update the demixing filter on whitened data is orthonormal (unitary), hence outputs remain white.", "quantifier": "every state, contrast functions", "why_tests_cant": "The domain is infinite (all sizes and all real/complex values); a test samples finitely many arrays and compares with a tolerance.", "anchors": ["ssspy/bss/ica.py: FastICA.update_once", "ssspy/bss/fdica.py", "ssspy/bss/iva.py: FastIVA.update_once, FasterIVA.update_once"]}
{"id": "C55", "title": "Natural-gradient updates are equivariant", "statement": "The natural-gradient update commutes with any invertible mixing of the input: with W'=W A^{-1}, X'=A X the separated signals evolve identically; the plain gradient and natural gradient directions are related by right multiplication by W^H W.", "quantifier": "every invertible A, W, X, score function, step size and number of iterations", "why_tests_cant": "The domain is infinite (all sizes and all real/complex values); a test samples finitely many arrays and compares with a tolerance.", "anchors": ["ssspy/bss/ica.py: NaturalGradICA.update_once", "ssspy/bss/iva.py: NaturalGradIVA.update_once", "ssspy/bss/fdica.py: NaturalGradFDICA.update_once"]}
{"id": "C56", "title": "CACGMM posterior probabilities and mixing weights are normalised", "statement": "The posteriors computed in the E step sum to one over sources, mixing weights after the M step sum to one, covariance matrices are Hermitian with the prescribed trace after normalisation, and the separated signals sum to the reference channel.", "quantifier": "every state and data", "why_tests_cant": "The domain is infinite (all sizes and all real/complex values); a test samples finitely many arrays and compares with a tolerance.", "anchors": ["ssspy/bss/cacgmm.py: CACGMM.update_posterior, update_parameters, normalize_covariance, separate"]}
{"id": "C57", "title": "ADMM/PDS filter update solves its least-squares subproblem", "statement": "The demixing filter update in ADMM-based BSS minimises |W - (V - Y)|^2 + sum_q |W X - (Vt_q - Yt_q)|^2 over the filter. (Holds for white input; refuted in general, because the code solves with the Gram matrix on the wrong side.)", "quantifier": "every data", "why_tests_cant": "The domain is infinite (all sizes and all real/complex values); a test samples finitely many arrays and compares with a tolerance.", "anchors": ["ssspy/bss/admmbss.py: ADMMBSS.update_once"]}
{"id": "C58", "title": "Loss recording of prox-based methods", "statement": "With record_loss=True and penalty functions the loss of every iteration is recorded; with record_loss left at its default and a penalty function given, the loss is recorded as documented for the masking classes. (The default is refuted, and the masking classes fail with TypeError when asked to record.)", "quantifier": "every constructor argument combination", "why_tests_cant": "All argument combinations.", "anchors": ["ssspy/bss/proxbss.py: ProxBSSBase.__init__", "ssspy/bss/pdsbss.py: PDSBSS.__init__"]}
{"id": "C59", "title": "Constructor option validation", "statement": "A separation object can be constructed exactly for the documented option combinations: scale restoration needs a reference channel, spatial/source algorithm names must be supported, ME needs domain 2, extra keywords are only accepted for IPA. A constructed object can be called, and every iteration of the call runs exactly the requested spatial algorithm and the requested source updates. (The second half is expected to fail: fixed-point iteration and EM of the IPSDTA classes, AuxIVA without contrast functions, and unknown strings for normalisation, permutation alignment and scale restoration are accepted and raise later, the last two after all iterations.)", "quantifier": "every combination of options", "why_tests_cant": "All option combinations and strings.", "anchors": ["ssspy/bss/iva.py: AuxIVA.__init__", "ssspy/bss/ilrma.py: GaussILRMA.__init__, TILRMA.__init__, GGDILRMA.__init__"]}
{"id": "C60", "title": "Block decomposition of frequency bins in IPSDTA is a partition", "statement": "The split of n_bins frequency bins into n_blocks blocks covers every bin exactly once, in order, with block sizes differing by at most one, and re-assembling the per-block filters restores the original order.", "quantifier": "every n_bins, n_blocks >= 1", "why_tests_cant": "Unbounded integers.", "anchors": ["ssspy/bss/ipsdta.py: GaussIPSDTA.update_spatial_model_vcd, BlockDecompositionIPSDTABase._init_block_decomposition_psdtf"]}
{"id": "C64", "title": "GaussMNMF parameter updates never increase the loss", "statement": "The basis, activation and spatial updates of GaussMNMF, and update_once as a whole without partitioning, never increase the loss as long as no eigenvalue is below the floor; with partitioning the basis and activation updates and the multiplicative half of the latent update do not increase it either, and the full latent update keeps the latent variables positive with columns summing to one. (The renormalisation of the latent variables is not compensated: refuted that the full latent update never increases the loss.)", "quantifier": "every positive definite spatial model, positive parameters, positive semidefinite instantaneous covariance", "why_tests_cant": "The domain is infinite (all sizes and all real/complex values); a test samples finitely many arrays and compares with a tolerance.", "anchors": ["ssspy/bss/mnmf.py: GaussMNMF.update_once, update_basis, update_activation, update_spatial, update_latent, compute_loss"]}
{"id": "C65", "title": "Permutation-alignment options of CACGMM", "statement": "permutation_alignment=True and the documented solver/target names select the solver and target they name; iteration-count keywords are accepted exactly for the score-based solvers; unknown names raise NotImplementedError. (The documented target posterior of the correlation-based solver always fails an assertion: refuted.)", "quantifier": "every option value and keyword list", "why_tests_cant": "All strings and keyword lists.", "anchors": ["ssspy/bss/cacgmm.py: CACGMM.__init__, CACGMMBase.solve_permutation, solve_permutation_by_correlation"]}
{"id": "C67", "title": "CACGMM EM updates never increase the loss", "statement": "compute_loss equals the negative log-likelihood of the complex angular central Gaussian mixture (up to a constant); with unit-norm input one EM update, with or without covariance normalisation, never increases it as long as no eigenvalue of the initial covariances is below the floor, and hence the losses of a whole run are non-increasing.", "quantifier": "every positive definite covariances, positive weights, input, any number of iterations", "why_tests_cant": "The domain is infinite (all sizes and all real/complex values); a test samples finitely many arrays and compares with a tolerance.", "anchors": ["ssspy/bss/cacgmm.py: CACGMM.update_once, update_posterior, update_parameters, normalize_covariance, compute_loss"]}
{"id": "C68", "title": "Fixed points of the proximal methods are critical points of the loss", "statement": "With exact proximal operators of convex penalties (the operators l1 and l21 of the library are such) the iterations of PDSBSS and ADMMBSS never fail for positive step sizes, and at every fixed point of PDSBSS.update_once (of ADMMBSS.update_once for white input) the filter W is invertible and minimises loss(Z) + |Z - W|^2/(2 mu1) (resp. + rho |Z - W|^2/2) over all invertible filters Z.", "quantifier": "every input, step sizes, relaxation parameter, number of penalties, and fixed point", "why_tests_cant": "The domain is infinite (all sizes and all real/complex values); a test samples finitely many arrays and compares with a tolerance.", "anchors": ["ssspy/bss/pdsbss.py: PDSBSS.update_once", "ssspy/bss/admmbss.py: ADMMBSS.update_once", "ssspy/bss/proxbss.py: ProxBSSBase.compute_loss", "ssspy/linalg/prox.py"]}
{"id": "C69", "title": "Masking variants agree with the plain proximal methods", "statement": "MaskingPDSBSS (MaskingADMMBSS) with mask function m produces, at every iteration, the same filter and dual (auxiliary) variables as PDSBSS (ADMMBSS) with the single proximal operator z -> m(z) z.", "quantifier": "every mask function, input, parameters, number of iterations", "why_tests_cant": "The domain is infinite (all sizes and all real/complex values); a test samples finitely many arrays and compares with a tolerance.", "anchors": ["ssspy/bss/pdsbss.py: MaskingPDSBSS.update_once", "ssspy/bss/admmbss.py: MaskingADMMBSS.update_once"]}
{"id": "C61", "title": "Vector-wise coordinate descent minimises the IPSDTA cost over each filter row", "statement": "update_by_block_decomposition_vcd with the default singular_fn is defined for invertible filters and positive definite weighted covariances, replaces each row by a global minimiser of the block cost over all rows keeping the filter invertible, so a sweep never increases the cost; for blocks of one bin it returns the iterative projection filters. (Refuted for the call made by GaussIPSDTA and TIPSDTA: for every floor there is data for which treating 0 < |xi_hat| < floor as singular increases the cost, and with flooring_fn=None blocks of one bin always divide by zero.)", "quantifier": "every number of sources and neighbours, every Hermitian weighted covariance with positive definite diagonal blocks, every invertible filter, every floor", "why_tests_cant": "The domain is infinite (all sizes and all real/complex values); a test samples finitely many arrays and compares with a tolerance.", "anchors": ["ssspy/bss/_update_spatial_model.py: update_by_block_decomposition_vcd", "ssspy/bss/ipsdta.py: GaussIPSDTA.update_spatial_model_vcd, TIPSDTA.update_spatial_model_vcd"]}
{"id": "C71", "title": "GaussIPSDTA never increases its loss", "statement": "update_once of GaussIPSDTA (MM source model, optional normalisation, vector-wise coordinate descent) is defined, keeps the basis matrices positive definite, the activations positive and the filters invertible, gives unit-trace bases when normalising, and the recorded loss of the next state is not larger, as long as the flooring does not act; so the loss sequence of any run is non-increasing. The basis update solves the Riccati equation G P G = T Q T.", "quantifier": "every number of sources, frames, bases, blocks and neighbours, every data of full row rank, every flooring level", "why_tests_cant": "The domain is infinite (all sizes and all real/complex values); a test samples finitely many arrays and compares with a tolerance.", "anchors": ["ssspy/bss/ipsdta.py: GaussIPSDTA.update_once, update_source_model, update_basis_mm, update_activation_mm, update_spatial_model_vcd, compute_loss"]}
{"id": "C72", "title": "PSDTF normalisation is invisible to the loss", "statement": "normalize_block_decomposition_psdtf fails only when the trace of some basis over all blocks is zero; otherwise every basis gets total trace one, the reconstructed covariances and the losses of GaussIPSDTA and TIPSDTA are unchanged, and normalising twice equals normalising once.", "quantifier": "every basis and activation tensor", "why_tests_cant": "The domain is infinite (all sizes and all real/complex values); a test samples finitely many arrays and compares with a tolerance.", "anchors": ["ssspy/bss/ipsdta.py: BlockDecompositionIPSDTABase.normalize_block_decomposition_psdtf"]}
{"id": "C73", "title": "TIPSDTA never increases its loss", "statement": "update_once of TIPSDTA is defined, keeps the basis matrices positive definite, the activations positive and the filters invertible, and the recorded loss of the next state is not larger, as long as the flooring does not act; so the loss sequence of any run is non-increasing, for every positive degrees of freedom.", "quantifier": "every dof > 0, every number of sources, frames, bases, blocks and neighbours, every data of full row rank, every flooring level at most one", "why_tests_cant": "The domain is infinite (all sizes and all real/complex values); a test samples finitely many arrays and compares with a tolerance.", "anchors": ["ssspy/bss/ipsdta.py: TIPSDTA.update_once, update_source_model, update_basis_mm, update_activation_mm, update_spatial_model_vcd, compute_loss"]}
{"id": "C62", "title": "Inverse of a positive semidefinite matrix with flooring", "statement": "_psd_inv returns the inverse of the matrix whose eigenvalues were floored (of to_psd of the argument); it is the exact inverse when no eigenvalue is below the floor, is always defined, positive definite and bounded by 1/eps under the default flooring, and without flooring a singular matrix has no finite result.", "quantifier": "every Hermitian matrix of every size, every flooring function", "why_tests_cant": "The domain is infinite (all sizes and all real/complex values); a test samples finitely many arrays and compares with a tolerance.", "anchors": ["ssspy/bss/_update_spatial_model.py: _psd_inv"]}
{"id": "C63", "title": "lqpqm2 minimises its log-quadratically penalised objective", "statement": "lqpqm2(H, v, z) returns the minimiser over q of |q|^2 - log((q+v)^H H (q+v) + z), up to the tolerance of the flooring, with every bin treated independently of which other bins are singular. (Holds on convergence when the largest eigenvalue of H is 1 and for one-dimensional problems with H=1. Refuted otherwise: the eigenvalues are normalised a second time inside solve_equation without undoing it in z and v, the singular branch takes a row instead of a column of the eigenvector matrix, and terms below the floor are masked although their contribution is not small.)", "quantifier": "every dimension, positive semidefinite H, v, z >= 0, number of bins and iterations", "why_tests_cant": "The domain is infinite (all sizes and all real/complex values); a test samples finitely many arrays and compares with a tolerance.", "anchors": ["ssspy/linalg/lqpqm.py: lqpqm2, solve_equation"]}
{"id": "C74", "title": "Iterative projection with adjustment minimises the auxiliary function", "statement": "update_by_ipa changes, for source n, only row and column n of the demixing transform, and the change minimises the auxiliary function sum_k mean_t phi_kt |y_kt|^2 - 2 log|det V| over all such changes, so a call never increases it; a call warns if and only if the solver of one of its steps did not converge. (For every number of sources the step is exactly the minimisation handed to lqpqm2 and is optimal if and only if lqpqm2 returns a minimiser. For two sources with the default trace normalisation it is always optimal, defined and without warning, and a whole call never increases the auxiliary function. Refuted for more: with three or more sources a converged step is never optimal for generic data, and with four sources a step can increase the auxiliary function.)", "quantifier": "every number of sources, frames, bins and iterations, positive weights, signals of full row rank, every flooring level that does not act on the data", "why_tests_cant": "The domain is infinite (all sizes and all real/complex values); a test samples finitely many arrays and compares with a tolerance.", "anchors": ["ssspy/bss/_update_spatial_model.py: update_by_ipa", "ssspy/linalg/lqpqm.py: lqpqm2"]}
{"id": "C75", "title": "The losses recorded during an AuxIVA run never increase", "statement": "Calling AuxIVA, AuxLaplaceIVA or AuxGaussIVA with record_loss=True appends n_iter + 1 finite losses, the first one computed before any update (AuxGaussIVA: with unit variances), and the list never increases. Without flooring this holds for IP1, IP2, ISS1 and ISS2, every super-Gaussian contrast and the Gauss model with its variance update, in every run that stays finite. With max_flooring it holds for IP1 and ISS1 as long as the floor does not act on the norms; AuxLaplaceIVA runs are always defined and no iteration adds more than n_sources * eps / 2 to the loss, whatever the signals.", "quantifier": "every number of sources, bins, frames and iterations, every mixture of full row rank in each bin, every invertible initial filter, every list of pairs of distinct sources", "why_tests_cant": "The domain is infinite (all sizes and all real/complex values); a test samples finitely many arrays and compares with a tolerance.", "anchors": ["ssspy/bss/base.py: IterativeMethodBase.__call__", "ssspy/bss/iva.py: AuxIVA.update_once, AuxLaplaceIVA, AuxGaussIVA.update_once, update_once_ip2, update_source_model"]}
{"id": "C70", "title": "The mask of harmonic vector analysis", "statement": "The masking function of the HVA classes returns values in (0, 1], so masking never amplifies; the values raised to 1/attenuation sum to one over the sources in every bin (the n_sources-th powers with the default attenuation); a common gain of all sources does not change the mask and individual gains enter as powers; cepstral coefficients that are zero or at least one are kept exactly (then the mask is the damped Wiener mask). The default attenuation is 1 / n_sources of the signal at hand (refuted: it is frozen by the first call). The cosine shrinkage keeps larger coefficients at least as much as smaller ones (refuted for negative coefficients).", "quantifier": "every number of sources and of bins, every frame, attenuation, number of shrinkage iterations and positive floor", "why_tests_cant": "The domain is infinite (all sizes and all real/complex values); a test samples finitely many arrays and compares with a tolerance.", "anchors": ["ssspy/bss/hva.py: MaskingPDSHVA.__init__ mask_fn, MaskingADMMHVA.__init__ mask_fn"]}
{"id": "C76", "title": "Spectral normalisation makes the splitting operator a contraction", "statement": "normalize_by_spectral_norm(input, n_penalties=Q) returns a spectrogram X' with Q*|W X'_i|^2 <= |W|^2 (Frobenius norms) for every filter W and every bin i, with equality for some non-zero W in some bin. Hence the step sizes of the primal-dual splitting meet their condition mu1*mu2*|L|^2 <= 1 on the normalised input exactly when mu1*mu2 <= 1. The result does not depend on a positive gain of the input, normalising twice is normalising once, and it fails (division by zero) exactly for a silent input or Q = 0.", "quantifier": "every number of bins, channels, frames and penalties; every complex input; every function that computes the spectral norm", "why_tests_cant": "The domain is infinite (all sizes and all real/complex values); a test samples finitely many arrays and compares with a tolerance.", "anchors": ["ssspy/bss/proxbss.py:205-223"]}
{"id": "C77", "title": "AuxFDICA is one-bin AuxIVA in every bin and its loss never increases", "statement": "One update of AuxFDICA (spatial_algorithm IP, IP1 or IP2) gives in every frequency bin what AuxIVA gives on that bin alone, and fails only if one of those fails. The loss is the sum of the one-bin losses and is not changed by rearranging the rows of the filter of any bin, which is all the permutation alignment does. Without flooring the losses recorded by a run never increase; with max_flooring they never increase while no modulus is below eps/2, and for AuxLaplaceFDICA an iteration never adds more than n_bins*n_sources*eps/2 (an increase does occur for some recordings: C77_floor_refuted).", "quantifier": "every number of bins, sources, frames and iterations; every mixture with linearly independent channels in each bin; every super-Gaussian contrast function; every list of pairs of distinct sources", "why_tests_cant": "The domain is infinite (all sizes and all real/complex values); a test samples finitely many arrays and compares with a tolerance.", "anchors": ["ssspy/bss/fdica.py:846-1245", "ssspy/bss/fdica.py:199-223", "ssspy/bss/fdica.py:1527-1653"]}
{"id": "C66", "title": "Gradient methods descend the loss they report", "statement": "GradICA, GradFDICA, GradIVA and their natural-gradient variants take a user-supplied contrast function and a score function documented as its derivative. When the score is that derivative at the current separated signals, the displacement made by one holonomic gradient update is (step size times) the gradient of the loss returned by compute_loss: the derivative of the loss in every direction of filter space is the inner product with it. Hence every sufficiently small step_size strictly decreases the loss, for the holonomic gradient and for the natural gradient of both types, unless the update leaves the filters unchanged. The scores of the Laplace and Gauss models of the library are the derivatives of their contrasts wherever flooring is inactive. The plain gradient with is_holonomic=False, the default of GradICA and GradFDICA, is not a descent direction: there are signals on which every small step increases the loss.", "quantifier": "for all numbers of sources, bins and frames, all inputs, all invertible filters, all contrast/score pairs, all directions, all small step sizes", "why_tests_cant": "The domain is infinite (all sizes and all real/complex values); a test samples finitely many arrays and compares with a tolerance.", "anchors": ["ssspy/bss/ica.py:156-189", "ssspy/bss/ica.py:535-554", "ssspy/bss/fdica.py:199-241", "ssspy/bss/fdica.py:629-650", "ssspy/bss/iva.py:200-236", "ssspy/bss/iva.py:795-818", "ssspy/bss/iva.py:969-988"]}
{"id": "C78", "title": "Calls follow the gain and the phase of the recording", "statement": "For every observation, initial filter, number of iterations and reference, with flooring_fn=None, a complete call of AuxLaplaceIVA or AuxGaussIVA (IP1 or ISS1, projection back) on an observation whose bins are multiplied by complex factors of one common modulus returns the original result multiplied by the same factors, and fails exactly when the original call fails; for AuxLaplaceFDICA (IP1, no permutation alignment) the moduli of the factors may differ between bins. Without scale restoration, mixing every bin by an invertible matrix which the given initial demix_filter undoes leaves the separated signals unchanged.", "quantifier": "all numbers of sources, bins, frames and iterations; all observations, initial filters, references, factors and invertible mixings", "why_tests_cant": "The domain is infinite (all sizes and all real/complex values); a test samples finitely many arrays and compares with a tolerance.", "anchors": ["ssspy/bss/iva.py:1637-1777", "ssspy/bss/iva.py:3319-3337", "ssspy/bss/fdica.py:979-1116", "ssspy/bss/_update_spatial_model.py:10-60"]}
{"id": "C79", "title": "The frames only matter through their values: their order and an even repetition do not", "statement": "Running AuxIVA (any contrast function per frame, or AuxGaussIVA), AuxFDICA or ILRMA (Gauss, t, GGD; MM or ME; any normalisation; with or without partitioning) on a recording whose STFT frames are in another order, or on a recording played several times in a row, gives the same demixing filters, NMF bases and recorded losses, and the frames of the separated output are rearranged or repeated the same way. This holds for IP1, IP2, ISS1 and ISS2, including when the run raises. For ILRMA the initial activations are rearranged the same way.", "quantifier": "all numbers of sources, bins, frames and iterations, all inputs, initial filters and NMF parameters, all flooring functions, all pair sequences, all frame lists in which every frame occurs equally often", "why_tests_cant": "The domain is infinite (all sizes and all real/complex values); a test samples finitely many arrays and compares with a tolerance.", "anchors": ["ssspy/bss/iva.py:1637-1735", "ssspy/bss/fdica.py:979-1063", "ssspy/bss/ilrma.py:820-922", "ssspy/bss/ilrma.py:365-514"]}
{"id": "C80", "title": "The order of the frequency bins does not matter for AuxIVA and ILRMA", "statement": "Running AuxIVA (any contrast function, or AuxGaussIVA) or ILRMA (Gauss, t, GGD; MM or ME; any normalisation; with or without partitioning) on a recording whose frequency bins are in another order, with the initial filters and bases in that order, gives the filters, bases and outputs in that order, the same activations and variances and the same recorded losses, for IP1, IP2, ISS1 and ISS2, and raises exactly when the original run raises.", "quantifier": "all numbers of sources, bins, frames and iterations, all inputs and initial values, all flooring functions, all pair sequences, all orders of the bins", "why_tests_cant": "The domain is infinite (all sizes and all real/complex values); a test samples finitely many arrays and compares with a tolerance.", "anchors": ["ssspy/bss/iva.py:1637-1735", "ssspy/bss/iva.py:3319-3337", "ssspy/bss/ilrma.py:820-922"]}
{"id": "C81", "title": "Observations without full rank are rejected", "statement": "If in some frequency bin the channels are linearly dependent (a silent bin, a silent or duplicated channel, fewer frames than channels), every run of AuxIVA, AuxFDICA or ILRMA with IP1 or IP2 and at least one iteration fails, for every initial value, contrast function and flooring function. With ISS1 or ISS2 the recording of the loss fails before the first iteration, and without it the projection back at the end of the call fails. For AuxLaplaceIVA with max_flooring this is the only reason to fail.", "quantifier": "all numbers of sources, bins, frames and iterations, all observations, initial values, contrast, flooring functions and pair sequences", "why_tests_cant": "The domain is infinite (all sizes and all real/complex values); a test samples finitely many arrays and compares with a tolerance.", "anchors": ["ssspy/bss/_update_spatial_model.py:61-78", "ssspy/bss/_update_spatial_model.py:348-395", "ssspy/bss/iva.py:2179-2204", "ssspy/bss/ilrma.py:1934-1979"]}
{"id": "C82", "title": "ILRMA's normalisation only changes the parametrisation, and a call follows the gain of every bin", "statement": "For GaussILRMA, TILRMA and GGDILRMA without flooring (flooring_fn=None) and without partitioning, spatial_algorithm IP/IP1 or ISS/ISS1, every source algorithm: two calls on the same input from the same initial values that differ only in the argument normalization (None, 'power', 'projection_back') record the same losses and, after scale restoration by projection back, return the same signals whenever both complete; before restoration their outputs differ by one factor per bin and source. Multiplying bin i of the input by a non-zero complex factor z_i, with the initial bases of that bin multiplied by |z_i|**domain, multiplies the returned bin by z_i and shifts every recorded loss by the same constant; more generally the losses are shifted by the log-determinant of any invertible mixing of the channels that the initial filters undo.", "quantifier": "all recordings, numbers of sources, bins, frames, bases and iterations, domains, dof and beta accepted by the constructors, non-negative initial bases and activations, all non-zero gains", "why_tests_cant": "The domain is infinite (all sizes and all real/complex values); a test samples finitely many arrays and compares with a tolerance.", "anchors": ["ssspy/bss/ilrma.py:333-514", "ssspy/bss/ilrma.py:820-922", "ssspy/bss/ilrma.py:1934-1979"]}
{"id": "C83", "title": "ILRMA: recorded losses never increase", "statement": "Take GaussILRMA, TILRMA or GGDILRMA without partitioning and with flooring_fn=None, any admissible domain, dof or beta and either source algorithm, any of IP1, IP2 (demixing filters) or ISS1, ISS2 (separated signals), and normalization off, \"power\" or \"projection_back\". Start from invertible filters and positive basis and activation matrices, with a mixture whose channels are linearly independent in every frequency bin. If a call with record_loss=True for any number of iterations completes with finite values, the list self.loss has one entry more than the number of iterations and no entry is larger than an earlier one; the final filters are invertible and the final basis and activation are positive. With partitioning the loss after an iteration is at most the loss right after the update of the latent variables (that update itself may increase it, C49).", "quantifier": "all numbers of sources, bins, frames, bases and iterations, all recordings, initial filters and NMF parameters, all parameters of the source models, all spatial updates, pair lists and normalisations", "why_tests_cant": "The domain is infinite (all sizes and all real/complex values); a test samples finitely many arrays and compares with a tolerance.", "anchors": ["ssspy/bss/ilrma.py:820-922", "ssspy/bss/ilrma.py:333-514"]}
{"id": "C84", "title": "A FastGaussMNMF call completes, never increases its loss and returns signals that sum to the reference channel", "statement": "Take FastGaussMNMF with flooring_fn=None, diagonalizer_algorithm IP, IP1 or IP2 and normalization on or off, a recording whose channels are linearly independent in every bin and that is not silent in any frame, invertible initial diagonalisers and positive spatial, basis and activation parameters. Then a call with record_loss=True completes for every number of iterations; self.loss has one entry more than the number of iterations and never increases; the returned signals sum to the reference channel in every bin and frame; diagonalisers stay invertible and parameters positive. The returned signals and the last recorded loss belong to the same final parameters. With max_flooring(eps), 0 < eps <= 1, and IP1 the run also completes with non-increasing losses for parameters at least eps.", "quantifier": "all numbers of sources, channels, bins, frames, bases and iterations, all recordings and initial values as above, all pair lists with distinct members, every reference channel", "why_tests_cant": "The domain is infinite (all sizes and all real/complex values); a test samples finitely many arrays and compares with a tolerance.", "anchors": ["ssspy/bss/mnmf.py:85-117", "ssspy/bss/mnmf.py:1174-1303", "ssspy/bss/mnmf.py:1419-1447", "ssspy/bss/mnmf.py:666-678"]}
{"id": "C85", "title": "FastGaussMNMF: normalisation has no effect on losses and signals; mixing and gains are followed", "statement": "Take FastGaussMNMF with flooring_fn=None and IP1, a recording whose channels are linearly independent in every bin and that is not silent in any frame, invertible initial diagonalisers and positive parameters. (1) A call with normalization=True returns the same signals and records the same losses as with normalization=False. (2) If the recording of every bin is multiplied by an invertible matrix A_i and the initial diagonalisers by its inverse (their rows may be scaled arbitrarily with the spatial parameters following, and level may be moved between spatial and basis parameters), the signals estimated for reference channel r are the combination, with row r of A_i, of the images estimated at all channels before, and every loss moves by 2 sum_i ln|det A_i|. (3) If every bin of the recording is multiplied by its own non-zero complex gain and the basis by the power of that gain, every returned signal is multiplied by the gain.", "quantifier": "all sizes, recordings, initial values, matrices, gains, numbers of iterations and reference channels", "why_tests_cant": "The domain is infinite (all sizes and all real/complex values); a test samples finitely many arrays and compares with a tolerance.", "anchors": ["ssspy/bss/mnmf.py:666-678", "ssspy/bss/mnmf.py:1174-1303", "ssspy/bss/mnmf.py:1330-1514", "ssspy/bss/mnmf.py:1647-1675"]}
{"id": "C86", "title": "GaussMNMF calls that return never increase the loss and return images of the reference channel", "statement": "Take GaussMNMF with flooring_fn=None, a recording with no silent bin and no silent frame, positive definite initial spatial covariances and positive initial NMF parameters. If a call with record_loss=True returns, the n_iter + 1 recorded losses never increase, the returned signals sum to the reference channel in every bin and frame, the parameters stay positive (definite), the first loss is that of the initial and the last that of the final parameters, from which the signals are separated, and with normalization=True the final spatial covariances have unit trace. The call returns as long as the right-hand sides of the Riccati equations of update_spatial are positive definite. This is not implied by a recording of full rank: update_spatial can raise (refuted); with fewer frames than channels every iteration raises. With partitioning=True the signals also sum to the reference channel and the latent variables of every basis sum to one over the sources.", "quantifier": "all numbers of sources, channels, bins, frames, bases and iterations, all recordings and initial values as above, every reference channel", "why_tests_cant": "The domain is infinite (all sizes and all real/complex values); a test samples finitely many arrays and compares with a tolerance.", "anchors": ["ssspy/bss/mnmf.py:85-188", "ssspy/bss/mnmf.py:741-838", "ssspy/bss/mnmf.py:840-1073"]}
{"id": "C87", "title": "GaussMNMF: normalisation has no effect on losses and signals; mixing and gains are followed", "statement": "Take GaussMNMF without partitioning, flooring_fn=None, a recording with no silent bin and no silent frame, positive definite initial spatial covariances and positive NMF parameters. (1) A call with normalization=True returns exactly when one with normalization=False does, with the same signals and the same recorded losses. (2) If the recording of every bin is multiplied by an invertible matrix A_i and the initial spatial covariances H_i are replaced by A_i H_i A_i^H (level may be moved between them and the bases), a call returns when the original does; the signals estimated for reference channel r are the combination, with row r of A_i, of the images the original estimates at all reference channels, and every loss is raised by the sum of 2 log|det A_i|. (3) If every bin is multiplied by a gain z_i and the initial bases by |z_i|^2, the signals are multiplied by z_i.", "quantifier": "all sizes, recordings, initial values, matrices, gains, numbers of iterations and reference channels", "why_tests_cant": "The domain is infinite (all sizes and all real/complex values); a test samples finitely many arrays and compares with a tolerance.", "anchors": ["ssspy/bss/mnmf.py:391-414", "ssspy/bss/mnmf.py:741-1016"]}
{"id": "C88", "title": "What the masks of CACGMM depend on", "statement": "A complete call of CACGMM is unaffected, up to the expected change of the output, by: complex gains of single time-frequency points common to all channels (parameters and posteriors unchanged, output multiplied by the gains); an invertible mixing of the channels of a bin with initial covariances mixed alike (weights and posteriors unchanged, losses shifted by a constant); reordering or evenly repeating the frames (same parameters and losses); relabelling the initial sources in every bin (results relabelled, same loss); processing only some of the bins (each bin is separated on its own without permutation alignment). Without flooring a full-rank recording without silent frames never makes a call fail, for any number of iterations.", "quantifier": "all recordings, initial parameters, gains, mixings, permutations, numbers of iterations and sources", "why_tests_cant": "The domain is infinite (all sizes and all real/complex values); a test samples finitely many arrays and compares with a tolerance.", "anchors": ["ssspy/bss/cacgmm.py:118-222", "ssspy/bss/cacgmm.py:508-738"]}
{"id": "C89", "title": "The order of sources, bins, frames and NMF bases is irrelevant", "statement": "Reordering the bins and frames of a recording, the sources, and (differently for each source) the NMF bases together with the initial parameters reorders the output of GaussMNMF (with and without partitioning) and FastGaussMNMF in the same way and leaves every recorded loss unchanged; a call fails on the reordered input exactly if it fails on the original. For every ILRMA class, with and without partitioning, reordering the NMF bases of the initial parameters changes neither losses nor separated signals.", "quantifier": "all recordings, initial parameters, permutations, flooring functions, numbers of iterations, normalisation settings", "why_tests_cant": "The domain is infinite (all sizes and all real/complex values); a test samples finitely many arrays and compares with a tolerance.", "anchors": ["ssspy/bss/mnmf.py:109-204", "ssspy/bss/mnmf.py:741-1073", "ssspy/bss/mnmf.py:1180-1500", "ssspy/bss/ilrma.py:820-1005"]}
{"id": "C90", "title": "Gradient IVA and FDICA do not depend on the order of microphones, bins or frames, and the Gauss model not on frame gains", "statement": "For complete calls of GradLaplaceIVA, NaturalGradLaplaceIVA, GradGaussIVA, NaturalGradGaussIVA (holonomic or not) and of GradLaplaceFDICA, NaturalGradLaplaceFDICA without permutation alignment: reordering microphones, frequency bins and frames of the input reorders the returned signals in the same way, keeps every recorded loss, and failing calls fail.  More generally mixing each bin by an invertible matrix (unitary for the plain gradient) and starting from the matching filters shifts all recorded losses by the same constant.  With the Gauss model, multiplying every frame by its own non-zero gain keeps the filters, multiplies the returned frames by the gains and shifts all losses after the first by one constant.  One silent frame makes every Gauss run fail whatever flooring_fn is given; with positive flooring the Laplace natural gradient updates never fail.", "quantifier": "all sizes, inputs, step sizes, flooring functions, iteration counts, reference channels, permutations, gains; no bounds", "why_tests_cant": "The domain is infinite (all sizes and all real/complex values); a test samples finitely many arrays and compares with a tolerance.", "anchors": ["ssspy/bss/iva.py:359-392", "ssspy/bss/iva.py:764-818", "ssspy/bss/iva.py:936-988", "ssspy/bss/iva.py:2417-2441", "ssspy/bss/iva.py:2583-2652", "ssspy/bss/iva.py:2905-2974", "ssspy/bss/fdica.py:402-437", "ssspy/bss/fdica.py:1332-1355"]}
{"id": "C91", "title": "FastIVA and FasterIVA results do not depend on LAPACK's choices, nor on microphone order", "statement": "A complete call of FastIVA or FasterIVA (whitening, n_iter updates from identity filters, projection back, recorded losses) returns the same separated signals and the same losses whichever eigendecomposition and singular value decomposition routines satisfying their specifications are used, although eigenvectors are determined only up to a phase; and when the microphones are handed over in another order, or the frequency bins multiplied by non-zero factors, with the reference index pointing to the same microphone, it returns the same sources in the same order (times the factors) and the same losses; a permutation of bins or frames permutes the result in the same way.", "quantifier": "for all spectrograms whose covariances have distinct eigenvalues in every bin, all routines meeting the eigh and svd contracts, all contrast functions, flooring functions, numbers of iterations, orders, factors and reference microphones, as long as the matrices handed to the symmetric orthogonalisation are invertible (and, for FasterIVA, the largest eigenvalues simple)", "why_tests_cant": "The domain is infinite (all sizes and all real/complex values); a test samples finitely many arrays and compares with a tolerance.", "anchors": ["ssspy/bss/iva.py:466-476", "ssspy/bss/iva.py:511-550", "ssspy/bss/iva.py:1102-1136", "ssspy/bss/iva.py:1150-1207", "ssspy/bss/iva.py:1306-1340", "ssspy/bss/iva.py:1354-1400", "ssspy/transform/whiten.py:55-67"]}
{"id": "C92", "title": "PDSBSS results do not depend on the singular value decomposition routine, nor on the order of microphones, bins and frames", "statement": "A complete call of PDSBSS (updates from identity filters, recorded losses, projection back) returns the same signals and losses whichever singular value decomposition routine satisfying its specification is used; handing over microphones, frequency bins or frames in another order returns the same signals in that order, at the same reference microphone, and the same losses. The proximal operator of -log|det| is a function of its (invertible) argument alone and follows unitary transforms from both sides; the l1 and l2,1 operators, their penalties, and masks that do not depend on the order meet the requirement. At a singular matrix the operator does depend on the routine.", "quantifier": "for all recordings, numbers of iterations, positive step sizes, relaxations, penalties and proximal operators that do not depend on the order, and all routines meeting the svd contract, as long as the matrices handed to the operator of -log|det| are invertible", "why_tests_cant": "The domain is infinite (all sizes and all real/complex values); a test samples finitely many arrays and compares with a tolerance.", "anchors": ["ssspy/bss/pdsbss.py:127-156", "ssspy/bss/pdsbss.py:197-219", "ssspy/bss/proxbss.py:172-203", "ssspy/bss/proxbss.py:225-255", "ssspy/linalg/prox.py:62-91"]}
{"id": "C93", "title": "ADMMBSS ignores initial filters, starts with zero filters, and otherwise does not depend on order", "statement": "An update of ADMMBSS does not read the demixing filters it replaces, so filters handed over by the user (or the default identity) have no effect on calls with n_iter >= 1. From the default auxiliary and dual variables the first update produces all-zero filters and an all-zero output for every recording: the loss recorded after it is not finite, a call with n_iter=1 and scale restoration fails, and the following proximal point is that of the zero matrix, which depends on the singular value decomposition routine. With the unit vectors as singular vectors of the zero matrix, calls do not depend on the routine otherwise, and microphones, bins or frames in another order give the same signals in that order.", "quantifier": "for all recordings, penalty parameters, relaxations, proximal operators, numbers of iterations and initial filters; the order statement as long as the matrices handed to the operator of -log|det| are invertible or zero", "why_tests_cant": "The domain is infinite (all sizes and all real/complex values); a test samples finitely many arrays and compares with a tolerance.", "anchors": ["ssspy/bss/admmbss.py:120-150", "ssspy/bss/admmbss.py:168-218", "ssspy/bss/admmbss.py:220-257", "ssspy/bss/proxbss.py:172-203", "ssspy/bss/proxbss.py:225-255"]}
{"id": "C94", "title": "Calls of the ICA classes do not depend on channel order, channel signs, sample order or the eigenvector routine", "statement": "Let the contrast and score functions act on each sample.  GradICA, NaturalGradICA and their Laplace versions, called with the default filter on a recording whose channels are in another order and whose samples are in another order, return the separated signals in those orders and the same losses; with an odd score and an even contrast (the Laplace classes) channels may also change sign.  More generally calls on A X from the filter W A^-1 return what calls on X from W return, with losses moved by log|det A|, for invertible A (natural gradient) or orthogonal A (gradient); a natural gradient call only uses the recording through the signals separated by the initial filter.  FastICA with an odd score, an even derivative and an even contrast returns, up to the signs of the separated signals, the same signals and losses when the recording is multiplied by a non-zero number and by an orthogonal matrix (for instance when channels are exchanged), when its samples are in another order, and when another correct routine computes the eigenvectors, provided the eigenvalues of the covariance are distinct.  A call of FastICA from an orthogonal filter returns signals whose sample covariance is the identity.  For a score that is not odd (as in the documented example of FastICA) the signs chosen by the eigenvector routine change the separated signals themselves.", "quantifier": "for all recordings, step sizes, options, sample-wise contrast and score functions, initial filters and numbers of iterations; FastICA for all routines satisfying the contract of eigh and returning real vectors", "why_tests_cant": "The domain is infinite (all sizes and all real/complex values); a test samples finitely many arrays and compares with a tolerance.", "anchors": ["ssspy/bss/ica.py:59-87", "ssspy/bss/ica.py:156-189", "ssspy/bss/ica.py:248-278", "ssspy/bss/ica.py:383-403", "ssspy/bss/ica.py:506-554", "ssspy/bss/ica.py:661-707", "ssspy/bss/ica.py:801-841", "ssspy/bss/ica.py:896-915", "ssspy/transform/whiten.py:40-52"]}
{"id": "C95", "title": "Calls of GaussIPSDTA and TIPSDTA do not depend on mixing, frame order, basis order, basis scale or the eigenvector and Cholesky routines", "statement": "A call of GaussIPSDTA or TIPSDTA on a recording A_i X_i (A_i any invertible matrix in every bin) with frames in another order, from filters W_i A_i^-1 and bases and activations in corresponding orders (the bases of every source may be permuted separately), is defined exactly when the call on X is; it returns the separated signals in that order of frames, times the factor by which the reference channel of A_i X_i differs from that of X_i (no factor without scale restoration), the bases and activations in those orders, and losses moved by 2 sum_i log|det A_i|.  With source normalisation, multiplying given bases by any non-zero numbers and dividing the activations by them changes nothing.  With a positive flooring, two correct routines for eigenvalue and Cholesky decompositions give identical signals, parameters and losses, for every recording and every initial state, and fail on the same ones.", "quantifier": "for all recordings, mixing matrices, orders, numbers of blocks, bases and iterations, initial states, degrees of freedom, and all routines satisfying the contracts of eigh and cholesky", "why_tests_cant": "The domain is infinite (all sizes and all real/complex values); a test samples finitely many arrays and compares with a tolerance.", "anchors": ["ssspy/bss/ipsdta.py:96-122", "ssspy/bss/ipsdta.py:341-369", "ssspy/bss/ipsdta.py:512-576", "ssspy/bss/ipsdta.py:666-697", "ssspy/bss/ipsdta.py:820-1227", "ssspy/bss/ipsdta.py:1335-1869", "ssspy/bss/_update_spatial_model.py:516-608"]}
