{
 "claims": [
  {
   "property": "C01",
   "status": "proved",
   "theorems": [
    "C01_counts",
    "C01_protocol"
   ],
   "note": "All executions of the loop, arbitrary user code."
  },
  {
   "property": "C02",
   "status": "proved",
   "theorems": [
    "C02_split_run"
   ],
   "note": ""
  },
  {
   "property": "C03",
   "status": "proved",
   "theorems": [
    "C03_exception",
    "C03_object_stays_usable"
   ],
   "note": ""
  },
  {
   "property": "C04",
   "status": "proved",
   "theorems": [
    "C04_continue",
    "C04_dropped",
    "C04_dropped_refuted",
    "C04_fresh",
    "C04_ipsdta_refuted",
    "C04_restart",
    "C04_scale_refuted"
   ],
   "note": "Heap model with abstract array contents. Fails for ISS/ISS1/ISS2/IPA (C04_dropped, C04_dropped_refuted), with scale restoration (C04_scale_refuted) and for the loss list of the IPSDTA classes (C04_ipsdta_refuted)."
  },
  {
   "property": "C05",
   "status": "proved",
   "theorems": [
    "C05_callback",
    "C05_callback_refuted",
    "C05_history",
    "C05_not_retained",
    "C05_result",
    "C05_retained_refuted",
    "C05_unmodified",
    "C05_valid"
   ],
   "note": "Heap model with abstract array contents. Fails for FastGaussMNMF's spatial (C05_retained_refuted) and for references kept by callbacks under in-place updates (C05_callback_refuted)."
  },
  {
   "property": "C06",
   "status": "proved",
   "theorems": [
    "C06_count",
    "C06_default_covers",
    "C06_one_source_refuted",
    "C06_sequential"
   ],
   "note": "One-source case shown to yield the pair (0,0) (C06_one_source_refuted)."
  },
  {
   "property": "C07",
   "status": "proved",
   "theorems": [
    "C07_documented_step_refuted",
    "C07_step2_count"
   ],
   "note": "Refuted: the documented example differs from the code."
  },
  {
   "property": "C08",
   "status": "proved",
   "theorems": [
    "C08_combination"
   ],
   "note": ""
  },
  {
   "property": "C09",
   "status": "proved",
   "theorems": [
    "C09_alias_refuted",
    "C09_consistent",
    "C09_rejects",
    "C09_rejects_ndim",
    "C09_total"
   ],
   "note": "Heap model of the solver: same rearrangement for the sequence and all arguments, other arrays untouched, failures before any modification. With overwrite=True an array given twice is permuted twice (C09_alias_refuted)."
  },
  {
   "property": "C10",
   "status": "proved",
   "theorems": [
    "C10_greedy"
   ],
   "note": "Order of bins, greedy first-best permutations, for norms nonzero after flooring and an argsort meeting numpy's contract (argsort_exP shows one)."
  },
  {
   "property": "C11",
   "status": "proved",
   "theorems": [
    "C11_choice",
    "C11_consistent",
    "C11_local_choice",
    "C11_local_only",
    "C11_rejects",
    "C11_total"
   ],
   "note": "Every number of global and local iterations; the choice of one global iteration is shown to be the first best for real data. Extra arguments without trailing dimension are excluded."
  },
  {
   "property": "C12",
   "status": "proved",
   "theorems": [
    "C12_corr_no_overwrite",
    "C12_corr_overwrite",
    "C12_score_no_overwrite",
    "C12_score_overwrite_args",
    "C12_score_overwrite_refuted",
    "C12_score_sequence_kept"
   ],
   "note": "Holds for the correlation-based solver and for overwrite=False; refuted for the sequence of the score-based solver with overwrite=True (C12_score_overwrite_refuted, C12_score_sequence_kept)."
  },
  {
   "property": "C13",
   "status": "proved",
   "theorems": [
    "C13_roundtrip_float",
    "C13_roundtrip_int16",
    "C13_roundtrip_int8",
    "C13_same_layout"
   ],
   "note": "Samples are exact integers/rationals; int16/int8/float input."
  },
  {
   "property": "C14",
   "status": "proved",
   "theorems": [
    "C14_header"
   ],
   "note": "Stated for int16 input."
  },
  {
   "property": "C15",
   "status": "proved",
   "theorems": [
    "C15_negative_count_rejected",
    "C15_negative_offset_refuted",
    "C15_partial_read",
    "C15_read_rest"
   ],
   "note": "Negative frame_offset is not rejected by the code (C15_negative_offset_refuted)."
  },
  {
   "property": "C16",
   "status": "proved",
   "theorems": [
    "C16_accepts_only_consistent",
    "C16_block_align_refuted"
   ],
   "note": "block_align is not validated by the code (C16_block_align_refuted)."
  },
  {
   "property": "C17",
   "status": "proved",
   "theorems": [
    "C17_distribution",
    "C17_empty",
    "C17_formula",
    "C17_no_overflow",
    "C17_order",
    "C17_shift"
   ],
   "note": "Exact real arithmetic on one 1-D slice."
  },
  {
   "property": "C18",
   "status": "proved",
   "theorems": [
    "C18_bounds",
    "C18_empty",
    "C18_formula",
    "C18_log_softmax",
    "C18_no_overflow",
    "C18_shift"
   ],
   "note": "Exact real arithmetic on one 1-D slice."
  },
  {
   "property": "C19",
   "status": "proved",
   "theorems": [
    "C19_add",
    "C19_identity",
    "C19_max_fixed",
    "C19_max_idempotent",
    "C19_max_least",
    "C19_max_monotone"
   ],
   "note": "Exact real arithmetic."
  },
  {
   "property": "C20",
   "status": "proved",
   "theorems": [
    "C20_documented_choice",
    "C20_none_always_fails",
    "C20_none_refuted"
   ],
   "note": "The documented choice is proved; flooring_fn=None combined with a method is refuted (C20_none_refuted): it raises AssertionError instead of using the identity."
  },
  {
   "property": "C21",
   "status": "proved",
   "theorems": [
    "C21_inv2"
   ],
   "note": "Exact complex arithmetic."
  },
  {
   "property": "C22",
   "status": "proved",
   "theorems": [
    "C22_eigh2",
    "C22_other_types",
    "C22_type1",
    "C22_type2",
    "C22_type3"
   ],
   "note": "np.linalg.eigh and cholesky are parameters constrained by contracts proved satisfiable (eigh_contract_sat, chol_contract_sat)."
  },
  {
   "property": "C23",
   "status": "proved",
   "theorems": [
    "C23_invsqrtmh",
    "C23_invsqrtmh_floored",
    "C23_sqrtmh"
   ],
   "note": "Same contracts as C22."
  },
  {
   "property": "C24",
   "status": "proved",
   "theorems": [
    "C24_other_types",
    "C24_type1",
    "C24_type1_symmetric",
    "C24_type2",
    "C24_type3"
   ],
   "note": "Same contracts as C22; uniqueness of the mean also proved."
  },
  {
   "property": "C25",
   "status": "proved",
   "theorems": [
    "C25_hermitian",
    "C25_identity",
    "C25_lower_bound",
    "C25_spectrum"
   ],
   "note": "Same contracts as C22."
  },
  {
   "property": "C26",
   "status": "proved",
   "theorems": [
    "C26_agree",
    "C26_complex",
    "C26_negative",
    "C26_principal",
    "C26_real"
   ],
   "note": "Exact arithmetic, no signed zeros."
  },
  {
   "property": "C27",
   "status": "proved",
   "theorems": [
    "C27_complete",
    "C27_general",
    "C27_monic",
    "C27_rejects"
   ],
   "note": "Elementwise model; all=False is the first component of the returned triple."
  },
  {
   "property": "C28",
   "status": "proved",
   "theorems": [
    "C28_general",
    "C28_lqpqm",
    "C28_refuted"
   ],
   "note": "Proved for the LQPQM family and for every cubic outside one configuration; the documented claim for all real coefficients is refuted (C28_refuted)."
  },
  {
   "property": "C29",
   "status": "proved",
   "theorems": [
    "C29_exact",
    "C29_floored",
    "C29_limit",
    "C29_normalized",
    "C29_normalized_never",
    "C29_normalized_refuted",
    "C29_normalized_unit",
    "C29_terminates",
    "C29_zero_iterations"
   ],
   "note": "normalization=False: converged value is the root above all poles (exact, or within eps with the default flooring), monotone iterates, guaranteed convergence. normalization=True (used by lqpqm2): refuted unless the largest eigenvalue is 1 (C29_normalized_refuted, C29_normalized_never). The UserWarning is the boolean result."
  },
  {
   "property": "C30",
   "status": "proved",
   "theorems": [
    "C30_data",
    "C30_filter",
    "C30_filter_all"
   ],
   "note": "Filter form (single and all reference channels) and data form, arbitrary non-zero complex gains."
  },
  {
   "property": "C31",
   "status": "proved",
   "theorems": [
    "C31_data_sum",
    "C31_idempotent",
    "C31_mixing_row",
    "C31_second_defined",
    "C31_sum"
   ],
   "note": "Sum, mixing row, idempotence, and exactly when the second application is defined."
  },
  {
   "property": "C32",
   "status": "proved",
   "theorems": [
    "C32_agree",
    "C32_agree_all"
   ],
   "note": "Single reference channel and reference_id=None."
  },
  {
   "property": "C33",
   "status": "proved",
   "theorems": [
    "C33_default_refuted",
    "C33_defined",
    "C33_idempotent",
    "C33_optimal",
    "C33_scale"
   ],
   "note": "Optimality, invariance, idempotence, definedness; the default reference=None always fails (C33_default_refuted)."
  },
  {
   "property": "C34",
   "status": "proved",
   "theorems": [
    "C34_fastiva_mdp_refuted",
    "C34_fastiva_projection_back",
    "C34_mdp",
    "C34_mdp_defined",
    "C34_projection_back"
   ],
   "note": "MDP for IVA-type classes and projection back for FastIVA; FastIVA with MDP violates it (C34_fastiva_mdp_refuted)."
  },
  {
   "property": "C35",
   "status": "proved",
   "theorems": [
    "C35_complex",
    "C35_real",
    "C35_rejects"
   ],
   "note": "For any eigen-solver meeting its contract; the real branch assumes real eigenvectors for real input."
  },
  {
   "property": "C36",
   "status": "proved",
   "theorems": [
    "C36_complex",
    "C36_real",
    "C36_rejects"
   ],
   "note": "For any eigen-solver meeting its contract; the real branch assumes real eigenvectors for real input."
  },
  {
   "property": "C37",
   "status": "proved",
   "theorems": [
    "C37_l1",
    "C37_l1_zero",
    "C37_l21",
    "C37_l21_zero",
    "C37_zero_step"
   ],
   "note": "Global optimality with quadratic growth (hence uniqueness), zero set, and the zero-step case."
  },
  {
   "property": "C38",
   "status": "proved",
   "theorems": [
    "C38_neg_log",
    "C38_neg_log_rejects",
    "C38_neg_logdet",
    "C38_singular_vectors"
   ],
   "note": "neg_log and neg_logdet are global minimisers; for any SVD meeting its specification on the given matrix; square matrices."
  },
  {
   "property": "C39",
   "status": "proved",
   "theorems": [
    "C39_normal_equations",
    "C39_sweep"
   ],
   "note": "Exact arithmetic; flooring arbitrary for the sweep."
  },
  {
   "property": "C40",
   "status": "proved",
   "theorems": [
    "C40_add_flooring_refuted",
    "C40_large_floor_refuted",
    "C40_row_global_minimum",
    "C40_sweep_monotone",
    "C40_sweep_monotone_identity"
   ],
   "note": "Holds for identity and max_flooring(eps<=1); refuted for add_flooring and eps>1 (C40_*_refuted)."
  },
  {
   "property": "C41",
   "status": "proved",
   "theorems": [
    "C41_flooring_inactive",
    "C41_max_flooring_refuted",
    "C41_normal_equations",
    "C41_pair_global_minimum",
    "C41_sweep_invertible",
    "C41_sweep_monotone"
   ],
   "note": "Identity flooring: full statement, any list of pairs. max_flooring: unchanged result when the floor is inactive, otherwise the cost can increase (C41_max_flooring_refuted)."
  },
  {
   "property": "C42",
   "status": "proved",
   "theorems": [
    "C42_filter",
    "C42_invertible_action"
   ],
   "note": "Arbitrary flooring; per frequency bin, exact arithmetic."
  },
  {
   "property": "C43",
   "status": "proved",
   "theorems": [
    "C43_add_flooring_refuted",
    "C43_step_optimal",
    "C43_sweep_identity",
    "C43_sweep_monotone"
   ],
   "note": "Holds for identity and max_flooring(eps<=1); refuted for add_flooring (C43_add_flooring_refuted)."
  },
  {
   "property": "C44",
   "status": "proved",
   "theorems": [
    "C44_max_flooring_refuted",
    "C44_step_invertible",
    "C44_step_optimal",
    "C44_sweep_invertible",
    "C44_sweep_monotone"
   ],
   "note": "Identity flooring: optimal and monotone, any list of pairs, both pair orders, the list splitting is modelled. max_flooring: invertible, but the cost can increase (C44_max_flooring_refuted)."
  },
  {
   "property": "C45",
   "status": "proved",
   "theorems": [
    "C45_floor_refuted",
    "C45_gauss_ip1",
    "C45_gauss_iss1",
    "C45_ip1",
    "C45_ip1_no_flooring",
    "C45_ip2",
    "C45_ip2_pair",
    "C45_iss1",
    "C45_iss2",
    "C45_laplace_ip1",
    "C45_laplace_iss1"
   ],
   "note": "IP1/ISS1 with max_flooring(eps), eps<=1, when no floored norm is active (every norm >= eps/2); AuxLaplaceIVA with the floor active: increase bounded by n_sources*eps/2, and C45_floor_refuted shows a strict increase does occur. IP2/ISS2 without flooring. AuxGaussIVA includes the variance update."
  },
  {
   "property": "C46",
   "status": "proved",
   "theorems": [
    "C46_activation",
    "C46_activation_no_flooring",
    "C46_basis",
    "C46_basis_no_flooring",
    "C46_partitioned_activation",
    "C46_partitioned_basis"
   ],
   "note": "Gauss, t and GGD models, MM and ME, plain and partitioned NMF, max_flooring and no flooring; exact real arithmetic."
  },
  {
   "property": "C47",
   "status": "proved",
   "theorems": [
    "C47_power",
    "C47_power_latent",
    "C47_power_latent_output",
    "C47_power_output",
    "C47_power_unit",
    "C47_projection_back",
    "C47_projection_back_output",
    "C47_projection_back_refuted"
   ],
   "note": "Power normalisation (filter, output and partitioned forms) and projection-back normalisation (filter and output forms). Projection back fails (division by zero) when a reference entry of the estimated mixing matrix is zero (C47_projection_back_refuted)."
  },
  {
   "property": "C48",
   "status": "proved",
   "theorems": [
    "C48_floor_refuted",
    "C48_ip1",
    "C48_iss1",
    "C48_run",
    "C48_spatial_ip1",
    "C48_spatial_ip1_no_flooring",
    "C48_spatial_ip2",
    "C48_spatial_iss1",
    "C48_spatial_iss2"
   ],
   "note": "IP1 and ISS1 full iterations, and the IP2/ISS2 spatial steps without flooring. GGD needs the floor on |y|^(2-beta) inactive. With max_flooring and normalisation the next iteration re-floors the normalised basis and the loss can rise (C48_floor_refuted)."
  },
  {
   "property": "C49",
   "status": "proved",
   "theorems": [
    "C49_latent_step",
    "C49_latent_sums_to_one",
    "C49_refuted"
   ],
   "note": "Non-negativity and unit column sums; the MM step before renormalisation never increases the loss; the renormalised update can increase it (C49_refuted)."
  },
  {
   "property": "C50",
   "status": "proved",
   "theorems": [
    "C50_fast",
    "C50_fast_no_flooring",
    "C50_gauss",
    "C50_gauss_no_flooring"
   ],
   "note": "Separated sources sum to the reference channel: GaussMNMF and FastGaussMNMF, with max_flooring when every modelled covariance has all eigenvalues at least eps (so the floor does not act), and with the identity floor for all positive definite spatial models."
  },
  {
   "property": "C51",
   "status": "proved",
   "theorems": [
    "C51_fast",
    "C51_fast_defined",
    "C51_fast_unit",
    "C51_gauss",
    "C51_gauss_defined",
    "C51_partitioning_refuted"
   ],
   "note": "Trace normalisation (GaussMNMF without partitioning) and power normalisation (FastGaussMNMF) preserve modelled covariances, loss and separated output; unit trace / unit power afterwards; definedness. With partitioning the trace normalisation can increase the loss (C51_partitioning_refuted; the code comment says so)."
  },
  {
   "property": "C52",
   "status": "proved",
   "theorems": [
    "C52_activation",
    "C52_activation_no_flooring",
    "C52_basis",
    "C52_basis_no_flooring",
    "C52_diag_ip1",
    "C52_diag_ip1_no_flooring",
    "C52_diag_ip2",
    "C52_once",
    "C52_run",
    "C52_spatial"
   ],
   "note": "Basis, activation, spatial and diagonaliser (IP1, IP2) updates never increase the FastGaussMNMF loss; whole update_once with max_flooring 0<eps<=1 with or without normalisation, and any number of iterations (IP1)."
  },
  {
   "property": "C53",
   "status": "proved",
   "theorems": [
    "C53_riccati",
    "C53_riccati_no_flooring"
   ],
   "note": "Spatial update of GaussMNMF returns the unique positive definite solution of the Riccati equation, with max_flooring when no eigenvalue is below eps and with the identity floor when Q is positive definite."
  },
  {
   "property": "C54",
   "status": "proved",
   "theorems": [
    "C54_fasteriva",
    "C54_fasteriva_defined",
    "C54_fastica",
    "C54_fastica_fails",
    "C54_fastiva",
    "C54_fastiva_defined",
    "C54_run"
   ],
   "note": "FastICA (real), FastIVA and FasterIVA update_once: unitary filters for every input on which the update is defined, definedness, white outputs after any positive number of iterations; np.linalg.svd and eigh are parameters with satisfiable contracts."
  },
  {
   "property": "C55",
   "status": "proved",
   "theorems": [
    "C55_equivariant",
    "C55_gradient_defined",
    "C55_gradient_refuted",
    "C55_output",
    "C55_relation",
    "C55_same_side",
    "C55_stationary"
   ],
   "note": "NaturalGradICA/FDICA/IVA (one generic model): equivariance for any number of iterations, stationarity condition, relation to the plain gradient; C55_gradient_refuted shows the plain gradient is not equivariant, as documented."
  },
  {
   "property": "C56",
   "status": "proved",
   "theorems": [
    "C56_call",
    "C56_call_posterior",
    "C56_defined",
    "C56_parameters",
    "C56_posterior",
    "C56_posterior_defined",
    "C56_unit_input"
   ],
   "note": "posterior is the Bayes posterior of the floored densities and sums to one; weights sum to one; covariances Hermitian with unit trace; outputs sum to the reference channel; the step is defined from any valid parameters"
  },
  {
   "property": "C57",
   "status": "proved",
   "theorems": [
    "C57_defined",
    "C57_refuted",
    "C57_whitened"
   ],
   "note": "proved for white input (X X^H = a I) and definedness for all inputs; the general statement is refuted with a 2x1 witness"
  },
  {
   "property": "C58",
   "status": "proved",
   "theorems": [
    "C58_accepts",
    "C58_default",
    "C58_masking",
    "C58_masking_accepts",
    "C58_off",
    "C58_recorded",
    "C58_refuted"
   ],
   "note": "record_loss=True records every loss; the default never records although resolved to True (refuted); masking classes always raise TypeError when recording; accepted argument combinations characterised"
  },
  {
   "property": "C59",
   "status": "proved",
   "theorems": [
    "C59_accepts",
    "C59_contrast",
    "C59_dispatch",
    "C59_ipsdta_refuted",
    "C59_names",
    "C59_normalization",
    "C59_perm",
    "C59_reference",
    "C59_runs",
    "C59_scale"
   ],
   "note": "Constructors and dispatch of AuxIVA, AuxFDICA, the ILRMA classes, FastGaussMNMF and the IPSDTA classes; late failures characterised by C59_runs, C59_scale, C59_perm, C59_normalization, C59_contrast, C59_ipsdta_refuted."
  },
  {
   "property": "C60",
   "status": "proved",
   "theorems": [
    "C60_basis_dims",
    "C60_more_blocks_than_bins",
    "C60_no_block",
    "C60_partition",
    "C60_update"
   ],
   "note": "Block split/merge of the frequency axis as list operations; the update of a block is an arbitrary size-preserving function."
  },
  {
   "property": "C64",
   "status": "proved",
   "theorems": [
    "C64_activation",
    "C64_activation_no_flooring",
    "C64_basis",
    "C64_basis_no_flooring",
    "C64_latent_refuted",
    "C64_latent_simplex",
    "C64_latent_step",
    "C64_once",
    "C64_once_no_flooring",
    "C64_partitioned_activation",
    "C64_partitioned_basis",
    "C64_spatial",
    "C64_spatial_no_flooring"
   ],
   "note": "Every GaussMNMF update and update_once (without partitioning) never increases the loss when no floor acts; partitioned basis/activation/latent multiplicative step likewise; the full latent update is refuted (C64_latent_refuted) because the column renormalisation is not compensated."
  },
  {
   "property": "C65",
   "status": "proved",
   "theorems": [
    "C65_keywords",
    "C65_posterior_correlation_refuted",
    "C65_supported"
   ],
   "note": "dispatch of all option values and keyword lists characterised; documented target 'posterior' of the correlation solver refuted (AssertionError)"
  },
  {
   "property": "C67",
   "status": "proved",
   "theorems": [
    "C67_loss",
    "C67_no_flooring",
    "C67_normalized",
    "C67_run",
    "C67_unnormalized"
   ],
   "note": "one update and whole runs, with normalisation (floor at most 1, unit-trace covariances above the floor); without normalisation when the new traces stay below 1/floor"
  },
  {
   "property": "C68",
   "status": "proved",
   "theorems": [
    "C68_admm",
    "C68_admm_defined",
    "C68_l1",
    "C68_l21",
    "C68_loss",
    "C68_pds",
    "C68_pds_defined"
   ],
   "note": "PDSBSS for all inputs, ADMMBSS for white inputs (see C57); l1 and l21 shown to be exact proximal operators of whole arrays"
  },
  {
   "property": "C69",
   "status": "proved",
   "theorems": [
    "C69_admm",
    "C69_pds"
   ],
   "note": "equality of complete runs"
  },
  {
   "property": "C61",
   "status": "proved",
   "theorems": [
    "C61_floor_partial",
    "C61_floor_refuted",
    "C61_ip1",
    "C61_monotone",
    "C61_no_flooring_refuted",
    "C61_optimal",
    "C61_uncoupled"
   ],
   "note": "Sweep over one block; optimality per row and monotonicity for the default singular_fn, equality with IP1 for single bins; C61_floor_partial covers the floored call when no xi_hat lies strictly between 0 and the floor, C61_floor_refuted and C61_no_flooring_refuted show the call as made by IPSDTA fails otherwise."
  },
  {
   "property": "C71",
   "status": "proved",
   "theorems": [
    "C71_activation",
    "C71_basis",
    "C71_filters",
    "C71_once",
    "C71_run"
   ],
   "note": "Conditional on the flooring not acting along the iteration (quiet); C71_instance shows a state where it holds. Cholesky and eigh enter through contracts."
  },
  {
   "property": "C72",
   "status": "proved",
   "theorems": [
    "C72_defined",
    "C72_idempotent",
    "C72_norm"
   ],
   "note": "Real-number semantics."
  },
  {
   "property": "C73",
   "status": "proved",
   "theorems": [
    "C73_activation",
    "C73_basis",
    "C73_filters",
    "C73_once",
    "C73_run"
   ],
   "note": "Conditional on the flooring not acting along the iteration (quiet_t) and floor <= 1; C73_instance shows a state where it holds."
  },
  {
   "property": "C62",
   "status": "proved",
   "theorems": [
    "C62_bound",
    "C62_default",
    "C62_inverse",
    "C62_singular",
    "C62_to_psd"
   ],
   "note": "For every Hermitian matrix and every solver satisfying the eigh contract."
  },
  {
   "property": "C63",
   "status": "proved",
   "theorems": [
    "C63_floor_refuted",
    "C63_floored",
    "C63_limit",
    "C63_never",
    "C63_one",
    "C63_one_singular",
    "C63_refuted",
    "C63_singular_refuted",
    "C63_unit"
   ],
   "note": "Unique minimiser on convergence when the largest eigenvalue of H is 1 (C63_unit; within eps for the default flooring C63_floored; in the limit C63_limit; one-dimensional problems C63_one, C63_one_singular). In general refuted: C63_never/C63_refuted (second normalisation), C63_singular_refuted (row instead of column of the eigenvectors), C63_floor_refuted (masking below the floor)."
  },
  {
   "property": "C74",
   "status": "proved",
   "theorems": [
    "C74_never",
    "C74_reduction",
    "C74_refuted",
    "C74_three_refuted",
    "C74_two_call",
    "C74_two_defined",
    "C74_two_sources",
    "C74_warning"
   ],
   "note": "update_by_ipa: C74_reduction (exact reduction to lqpqm2 for any number of sources), C74_two_sources / C74_two_defined / C74_two_call (two sources: optimal, defined, monotone), C74_never and C74_three_refuted (three or more sources: not optimal), C74_refuted (four sources: the auxiliary function increases)"
  },
  {
   "property": "C75",
   "status": "proved",
   "theorems": [
    "C75_filter_run",
    "C75_gauss_filter_run",
    "C75_gauss_ip1_floor",
    "C75_gauss_iss1_floor",
    "C75_gauss_output_run",
    "C75_ip1_floor",
    "C75_iss1_floor",
    "C75_laplace_ip1",
    "C75_laplace_iss1",
    "C75_output_run"
   ],
   "note": "whole runs: C75_filter_run, C75_output_run, C75_gauss_filter_run, C75_gauss_output_run (no flooring, all four spatial algorithms), C75_laplace_ip1/iss1 (max_flooring, unconditional), C75_ip1_floor, C75_iss1_floor, C75_gauss_ip1_floor, C75_gauss_iss1_floor (max_flooring inactive on the norms)"
  },
  {
   "property": "C70",
   "status": "proved",
   "theorems": [
    "C70_attenuation_refuted",
    "C70_bound",
    "C70_default",
    "C70_defined",
    "C70_gain",
    "C70_partition",
    "C70_range",
    "C70_scale",
    "C70_shrink",
    "C70_shrink_refuted",
    "C70_single_bin",
    "C70_wiener"
   ],
   "note": "One frame; irfft of a real array as a cosine series, shown to be its own inverse. C70_attenuation_refuted: the attenuation of the first call is kept; C70_shrink_refuted: negative cepstral coefficients."
  },
  {
   "property": "C76",
   "status": "proved",
   "theorems": [
    "C76_bound",
    "C76_fails",
    "C76_gain",
    "C76_idempotent",
    "C76_step_size",
    "C76_tight"
   ],
   "note": "np.linalg.norm(ord=2) is a parameter with a contract (bound of the gain, attained), shown satisfiable through the spectral theorem."
  },
  {
   "property": "C77",
   "status": "proved",
   "theorems": [
    "C77_bins",
    "C77_floor_refuted",
    "C77_ip1_floor",
    "C77_laplace_ip1",
    "C77_loss",
    "C77_loss_defined",
    "C77_permutation",
    "C77_run"
   ],
   "note": "AuxFDICA.v is written from fdica.py independently of AuxIVA.v; C77_bins relates the two. Flooring: C77_laplace_ip1, C77_ip1_floor, C77_floor_refuted."
  },
  {
   "property": "C66",
   "status": "proved",
   "theorems": [
    "C66_bins",
    "C66_bins_laplace",
    "C66_descent",
    "C66_gauss",
    "C66_gradient",
    "C66_laplace",
    "C66_nonholonomic_refuted",
    "C66_real_descent",
    "C66_real_gradient",
    "C66_real_laplace"
   ],
   "note": "Proved for the holonomic gradient and both natural gradients; the non-holonomic plain gradient is refuted as a descent method (C66_nonholonomic_refuted)."
  },
  {
   "property": "C78",
   "status": "proved",
   "theorems": [
    "C78_gain_fdica",
    "C78_gain_gauss_ip1",
    "C78_gain_gauss_iss1",
    "C78_gain_ip1",
    "C78_gain_iss1",
    "C78_mixing",
    "C78_mixing_gauss"
   ],
   "note": "Calls without flooring (flooring_fn=None); IP2, ISS2 and IPA are not covered (their eigenvectors are only determined up to a phase)."
  },
  {
   "property": "C79",
   "status": "proved",
   "theorems": [
    "C79_call_fdica",
    "C79_call_gauss_ip1",
    "C79_call_gauss_iss1",
    "C79_call_laplace_ip1",
    "C79_call_laplace_iss1",
    "C79_fdica_run",
    "C79_filter_run",
    "C79_gauss_filter_run",
    "C79_gauss_output_run",
    "C79_ilrma_call_f",
    "C79_ilrma_call_o",
    "C79_ilrma_filter_run",
    "C79_ilrma_output_run",
    "C79_output_run",
    "C79_partitioned_filter_run",
    "C79_partitioned_output_run"
   ],
   "note": "runs with recorded losses and complete calls with projection back; IPA is not included"
  },
  {
   "property": "C80",
   "status": "proved",
   "theorems": [
    "C80_call_gauss_ip1",
    "C80_call_gauss_iss1",
    "C80_call_laplace_ip1",
    "C80_call_laplace_iss1",
    "C80_filter_run",
    "C80_gauss_filter_run",
    "C80_gauss_output_run",
    "C80_ilrma_call_f",
    "C80_ilrma_call_o",
    "C80_ilrma_filter_run",
    "C80_ilrma_output_run",
    "C80_output_run",
    "C80_partitioned_filter_run",
    "C80_partitioned_output_run"
   ],
   "note": "runs with recorded losses and complete calls with projection back; IPA is not included"
  },
  {
   "property": "C81",
   "status": "proved",
   "theorems": [
    "C81_call_gauss",
    "C81_call_gauss_output",
    "C81_call_laplace",
    "C81_call_output",
    "C81_fdica_run",
    "C81_few_frames",
    "C81_filter_run",
    "C81_filter_update",
    "C81_gauss_filter_run",
    "C81_gauss_output_run",
    "C81_ilrma_filter",
    "C81_ilrma_output",
    "C81_laplace_ip1_iff",
    "C81_laplace_iss1_iff",
    "C81_output_run",
    "C81_partitioned_filter",
    "C81_partitioned_output"
   ],
   "note": "in exact arithmetic, where a singular system is recognised as singular; IPA is not included"
  },
  {
   "property": "C82",
   "status": "proved",
   "theorems": [
    "C82_call_gain",
    "C82_call_gain_iff",
    "C82_call_gain_output",
    "C82_call_gain_output_iff",
    "C82_call_normalization",
    "C82_call_normalization_output",
    "C82_normalization",
    "C82_normalization_output",
    "C82_run",
    "C82_run_output"
   ],
   "note": "Whole runs and calls with IP1 and ISS1 for the three classes, all normalisations on either side; the initial bases must follow the gain of the input (with bases that do not, nothing is claimed). IP2/ISS2 are not covered: their eigenvectors are fixed only by the external routine. With partitioning the claim is not made: update_latent renormalises the latent variables without compensating in the bases."
  },
  {
   "property": "C83",
   "status": "proved",
   "theorems": [
    "C83_filter_run",
    "C83_output_run",
    "C83_partitioned_filter",
    "C83_partitioned_output"
   ],
   "note": "whole recorded runs in real arithmetic without flooring; IP1, IP2, ISS1, ISS2, every normalisation; runs that reach a non-finite value are outside (the call fails or records nan); IPA and partitioned models are not covered (for the latter see C49)"
  },
  {
   "property": "C84",
   "status": "proved",
   "theorems": [
    "C84_call",
    "C84_call_state",
    "C84_run",
    "C84_run_flooring"
   ],
   "note": "unconditional completion in real arithmetic; IP1 and IP2 without flooring, IP1 with max_flooring; np.linalg.eigh and cholesky as parameters with satisfiable contracts"
  },
  {
   "property": "C85",
   "status": "proved",
   "theorems": [
    "C85_gain",
    "C85_mixing",
    "C85_mixing_call",
    "C85_normalization"
   ],
   "note": "Gauge symmetry of one iteration (Prop_MnmfGauge.v), then runs and calls; IP2 is not covered (its eigenvectors are only determined up to a phase)."
  },
  {
   "property": "C86",
   "status": "proved",
   "theorems": [
    "C86_call",
    "C86_few_frames",
    "C86_partitioned_call",
    "C86_run",
    "C86_run_complete",
    "C86_spatial_refuted"
   ],
   "note": "Model in GaussRun.v; C64's steps composed along runs. chol_strict (Cholesky raises unless positive definite) is an assumption about numpy, shown satisfiable. C86_spatial_refuted: update_spatial without flooring can raise on a full-rank recording."
  },
  {
   "property": "C87",
   "status": "proved",
   "theorems": [
    "C87_gain",
    "C87_mixing",
    "C87_normalization"
   ],
   "note": "Gauge symmetry of one iteration, uniqueness of the Riccati solution for the spatial update, then runs and calls."
  },
  {
   "property": "C88",
   "status": "proved",
   "theorems": [
    "C88_bins",
    "C88_defined",
    "C88_frames",
    "C88_frames_loss",
    "C88_gain",
    "C88_gain_floor",
    "C88_mixing",
    "C88_mixing_loss",
    "C88_sources",
    "C88_sources_loss"
   ],
   "note": "Gains: when no observation is below the floor before or after. Mixing and definedness without flooring; mixing for alignments that depend on the posteriors only. C67_no_flooring adds monotone losses without flooring."
  },
  {
   "property": "C89",
   "status": "proved",
   "theorems": [
    "C89_fast",
    "C89_fast_run",
    "C89_gauss",
    "C89_gauss_run",
    "C89_ilrma_call_f",
    "C89_ilrma_call_o",
    "C89_ilrma_filter_run",
    "C89_ilrma_output_run",
    "C89_ilrma_partitioned_filter_run",
    "C89_ilrma_partitioned_output_run",
    "C89_partitioned",
    "C89_partitioned_run"
   ],
   "note": "The eigensolver and Cholesky factorisation are functions of the matrix alone; flooring is an arbitrary function. The order of sources does matter for ILRMA and AuxIVA, whose filters are updated one after the other, and is not claimed there."
  },
  {
   "property": "C90",
   "status": "proved",
   "theorems": [
    "C90_fdica_call",
    "C90_fdica_channels",
    "C90_fdica_run",
    "C90_frame_gain",
    "C90_frame_gain_call",
    "C90_gauss_call",
    "C90_gauss_channels",
    "C90_gauss_run",
    "C90_laplace_call",
    "C90_laplace_channels",
    "C90_laplace_run",
    "C90_natural_defined",
    "C90_silent_frame",
    "C90_unitary"
   ],
   "note": "Runs and complete calls are compared exactly; projection back with a fixed reference channel. The silent frame failure is recorded as a disagreement."
  },
  {
   "property": "C91",
   "status": "proved",
   "theorems": [
    "C91_fasteriva",
    "C91_fastiva",
    "C91_microphones",
    "C91_routines"
   ],
   "note": "FastRun.v models complete calls on top of Gradient.v (updates) and Scale.v (whitening, projection back). C91_fastiva and C91_fasteriva are the general statement (bins, frames, factors and a unitary change of the microphones whose reference row is a unit vector, two eigh and two svd routines); C91_routines and C91_microphones are its two readings. C91_instance: the hypotheses hold on a concrete recording for every routine meeting the contracts."
  },
  {
   "property": "C92",
   "status": "proved",
   "theorems": [
    "C92_call",
    "C92_l1",
    "C92_l21",
    "C92_mask",
    "C92_routines",
    "C92_run",
    "C92_singular_refuted"
   ],
   "note": "ProxRun.v models complete calls on top of ProxBss.v. C92_run allows unitary transforms of the microphones besides permutations; C92_call, C92_routines, C92_l1, C92_l21, C92_mask are its readings for complete calls, routines and operators. C92_singular_refuted: the invertibility hypothesis is needed. C92_instance: from the default start the first update is regular for every recording."
  },
  {
   "property": "C93",
   "status": "proved",
   "theorems": [
    "C93_call",
    "C93_filter_ignored",
    "C93_first",
    "C93_first_loss",
    "C93_one_iteration",
    "C93_routines",
    "C93_run",
    "C93_zero_refuted"
   ],
   "note": "C93_filter_ignored, C93_first, C93_first_loss, C93_one_iteration: the first update from the default start; C93_run, C93_call, C93_routines: order and routine; C93_zero_refuted: the routine matters at the zero matrix. C93_instance: a recording on which the hypotheses hold for two iterations and the call succeeds. Calls are modelled with record_loss=False because the second recorded loss is never finite."
  },
  {
   "property": "C94",
   "status": "proved",
   "theorems": [
    "C94_call",
    "C94_channels",
    "C94_fast",
    "C94_fast_default",
    "C94_fast_white",
    "C94_laplace",
    "C94_natural_start",
    "C94_parity_refuted",
    "C94_run"
   ],
   "note": "Complete recorded runs and calls of the gradient methods and of FastICA (IcaRun.v). The statement for scores that are not odd is refuted with a concrete recording and two correct routines."
  },
  {
   "property": "C95",
   "status": "proved",
   "theorems": [
    "C95_gauge",
    "C95_gauss",
    "C95_routines",
    "C95_t"
   ],
   "note": "Complete calls with the loss recorded, from given filters, bases and activations; minimal distortion principle is not in this model. Order of sources is not covered: the coordinate descent treats the sources one after the other."
  }
 ]
}