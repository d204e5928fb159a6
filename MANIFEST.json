{
 "claims": [
  {
   "property": "C01",
   "status": "proved",
   "theorems": [
    "cache_transparent",
    "cache_returns_when_nothing_raises"
   ],
   "note": ""
  },
  {
   "property": "C02",
   "status": "proved",
   "theorems": [
    "cache_bound",
    "cache_repeat_hits",
    "cache_bound_with_failures_refuted"
   ],
   "note": "Without raising evaluations the bound, the identity of the kept keys and the no-re-evaluation claim are proved; with raising evaluations the number of held results is shown to be unbounded (refuted)."
  },
  {
   "property": "C03",
   "status": "proved",
   "theorems": [
    "basis_builder_latest",
    "basis_builder_latest_refuted"
   ],
   "note": "Proved for histories without raising evaluations; one raising call breaks it (refuted witness)."
  },
  {
   "property": "C04",
   "status": "partial",
   "theorems": [
    "constants_set_before_use_partial",
    "constants_used_on_miss_partial",
    "constants_take_effect_refuted"
   ],
   "note": "False in general: a cached value survives set_default_params (refuted). Proved when all constants are set before the first evaluation, and for every call that misses the cache."
  },
  {
   "property": "C05",
   "status": "partial",
   "theorems": [
    "shared_array_on_miss_partial",
    "cached_results_change_refuted"
   ],
   "note": "False in general for PhysicalEphemerisSignal and the sparse ECORR method, which return the array they later overwrite (refuted, at signal and collection level). Proved for calls that evaluate; methods returning fresh values are covered by C01."
  },
  {
   "property": "C06",
   "status": "partial",
   "theorems": [
    "collection_delay_is_sum_partial",
    "collection_delay_stale_refuted"
   ],
   "note": "False in general: the collection's delay cache is not keyed on basis parameters (refuted). Proved when no signal that produces a delay has varying basis parameters."
  },
  {
   "property": "C07",
   "status": "proved",
   "theorems": [
    "memo_by_id_transparent",
    "memo_by_id_mutation_refuted"
   ],
   "note": "Proved for heaps in which objects are created but not modified; in-place modification breaks it (refuted witness)."
  },
  {
   "property": "C08",
   "status": "proved",
   "theorems": [
    "signal_sum_flattens"
   ],
   "note": ""
  },
  {
   "property": "C09",
   "status": "proved",
   "theorems": [
    "pta_sum_in_order",
    "pta_sum_model_plus_array_raises",
    "pta_sum_foreign",
    "pta_getitem_spec"
   ],
   "note": "In-order concatenation for every bracketing in which no array stands right of a single model; model + array is proved to raise AttributeError (PTA.__init__ reads _signals of each element)."
  },
  {
   "property": "C10",
   "status": "proved",
   "theorems": [
    "pta_params_spec"
   ],
   "note": "For every enumeration order of python's sets and priors nested to any depth, assuming one identity denotes one object."
  },
  {
   "property": "C11",
   "status": "proved",
   "theorems": [
    "map_params_lossless",
    "map_params_too_long",
    "map_params_too_short_scalar",
    "map_params_too_short_refuted"
   ],
   "note": "Lossless for vectors of the right length; too long proved truncated; too short raises when the first missing entry belongs to a scalar and silently gives a short vector otherwise (witness)."
  },
  {
   "property": "C12",
   "status": "proved",
   "theorems": [
    "param_names_unique",
    "param_names_unique_refuted"
   ],
   "note": "Proved under the no-collision hypothesis; distinct names alone are refuted by a witness."
  },
  {
   "property": "C13",
   "status": "proved",
   "theorems": [
    "lnprior_is_log_of_density",
    "lnprior_vector_dict"
   ],
   "note": "Densities are an oracle per parameter (their formulas are C56-C59); the sum is over exact reals with -inf."
  },
  {
   "property": "C14",
   "status": "partial",
   "theorems": [
    "hypercube_quantiles_partial",
    "hypercube_hierarchical_refuted"
   ],
   "note": "Full statement false: hyperparameters are read at their cube values, not transformed ones (refuted). Proved for priors that do not refer to other parameters."
  },
  {
   "property": "C15",
   "status": "proved",
   "theorems": [
    "get_signal_first"
   ],
   "note": ""
  },
  {
   "property": "C16",
   "status": "proved",
   "theorems": [
    "set_default_exact"
   ],
   "note": ""
  },
  {
   "property": "C17",
   "status": "proved",
   "theorems": [
    "by_backend_partition",
    "by_flag_spec",
    "no_selection_partition",
    "cut_half_partition"
   ],
   "note": ""
  },
  {
   "property": "C18",
   "status": "proved",
   "theorems": [
    "filtered_backends",
    "custom_backends_none",
    "custom_backends_dict_single",
    "custom_backends_dict_overlap_refuted",
    "nanograv_recovery_refuted"
   ],
   "note": "Disjointness and exact union proved for nanograv_backends and custom_backends; overlap of custom_backends_dict over several flags and the mismatch of the documented five-name list with nanograv_backends shown by witnesses."
  },
  {
   "property": "C19",
   "status": "proved",
   "theorems": [
    "by_freq_band_spec",
    "default_bands_cover"
   ],
   "note": ""
  },
  {
   "property": "C20",
   "status": "partial",
   "theorems": [
    "selection_binding",
    "selection_shift_refuted",
    "bound_attributes_partial",
    "bound_attributes_gap_refuted",
    "bound_attributes_keyword_gap"
   ],
   "note": "Proved when the arguments the pulsar supplies follow the positional ones without a gap; a gap is shown to shift attributes (witness) or, for a keyword gap, always to raise TypeError."
  },
  {
   "property": "C21",
   "status": "proved",
   "theorems": [
    "masked_attribute",
    "unmasked_attribute",
    "masked_position_refuted"
   ],
   "note": "Restriction proved for arrays of the mask's length, other attributes unchanged; the length coincidence is shown by a witness."
  },
  {
   "property": "C22",
   "status": "proved",
   "theorems": [
    "selection_names"
   ],
   "note": ""
  },
  {
   "property": "C23",
   "status": "proved",
   "theorems": [
    "white_ndiag_sum",
    "measurement_noise_formula"
   ],
   "note": ""
  },
  {
   "property": "C24",
   "status": "proved",
   "theorems": [
    "quantisation_partition",
    "quantisation_empty"
   ],
   "note": "For every argsort that returns a sorting permutation (numpy's default sort is not stable)."
  },
  {
   "property": "C25",
   "status": "proved",
   "theorems": [
    "quantisation_order_independent"
   ],
   "note": "Stronger than stated: holds with repeated TOAs and for any two correct argsort functions."
  },
  {
   "property": "C26",
   "status": "proved",
   "theorems": [
    "quant2ind_spec"
   ],
   "note": ""
  },
  {
   "property": "C27",
   "status": "proved",
   "theorems": [
    "ecorr_epochs",
    "ecorr_empty_selection"
   ],
   "note": ""
  },
  {
   "property": "C28",
   "status": "proved",
   "theorems": [
    "diag_solve"
   ],
   "note": ""
  },
  {
   "property": "C29",
   "status": "proved",
   "theorems": [
    "sherman_morrison_solve",
    "sherman_morrison_overlapping_refuted"
   ],
   "note": ""
  },
  {
   "property": "C30",
   "status": "proved",
   "theorems": [
    "blockmatrix_solve",
    "blockmatrix_not_posdef",
    "blockmatrix_row_raises",
    "blockmatrix_no_epoch"
   ],
   "note": ""
  },
  {
   "property": "C31",
   "status": "proved",
   "theorems": [
    "noise_sum",
    "noise_layouts",
    "ecorr_before_marginalizing"
   ],
   "note": ""
  },
  {
   "property": "C32",
   "status": "proved",
   "theorems": [
    "combine_posdef",
    "combine_covariance",
    "combine_order_refuted",
    "combine_collision_refuted",
    "combine_repeats_refuted"
   ],
   "note": "Proved under the three provisos of the statement; each is shown necessary by a refuted witness."
  },
  {
   "property": "C33",
   "status": "proved",
   "theorems": [
    "combine_shared",
    "combine_layout",
    "combine_distinct",
    "combine_sharing",
    "combine_sharing_refuted"
   ],
   "note": "Layout and distinctness for all lists; equality of shared contents needs the provisos of C32 (refuted witness without). Equal columns of combining signals are one column (combine_shared)."
  },
  {
   "property": "C34",
   "status": "proved",
   "theorems": [
    "likelihood_density",
    "likelihood_marginalised",
    "block_one_column"
   ],
   "note": "Any list of pulsars, with and without basis, with and without marginalised timing model, every noise object of positive variances; the block ECORR method needs a basis of more than one column and is proved to raise IndexError with one."
  },
  {
   "property": "C35",
   "status": "proved",
   "theorems": [
    "correlated_density",
    "correlated_marginalised"
   ],
   "note": "Stacked residuals, block-diagonal noise and any positive definite prior over all pulsars; also with marginalised timing models. That the prior matrix and its inverse are assembled correctly is C38-C42."
  },
  {
   "property": "C36",
   "status": "proved",
   "theorems": [
    "likelihood_no_basis",
    "correlated_no_basis"
   ],
   "note": "Proved without common signals; with common signals every evaluation with a basis-free pulsar is proved to raise."
  },
  {
   "property": "C37",
   "status": "proved",
   "theorems": [
    "likelihood_neginf",
    "correlated_neginf"
   ],
   "note": "Both branches: -inf exactly when a system to be factorised is not positive definite."
  },
  {
   "property": "C38",
   "status": "proved",
   "theorems": [
    "slices_consecutive",
    "slices_partition"
   ],
   "note": ""
  },
  {
   "property": "C39",
   "status": "proved",
   "theorems": [
    "phi_own",
    "phi_cross",
    "phi_pair",
    "phi_symmetric"
   ],
   "note": ""
  },
  {
   "property": "C40",
   "status": "proved",
   "theorems": [
    "cliques_separated",
    "cliques_vector",
    "cliques_dense",
    "cliques_untouched",
    "cliques_refuted"
   ],
   "note": "Proved when the recorded cliques separate the matrix (vector own priors with one or more common signals on aligned columns, a common signal on exactly one dense clique, or priors the common signals do not touch); the general statement is refuted by a common signal on part of a dense prior."
  },
  {
   "property": "C41",
   "status": "proved",
   "theorems": [
    "partition_one_class",
    "partition_two_classes_refuted",
    "partition_dense"
   ],
   "note": "Proved for one common class in all pulsars with vector priors; two classes are refuted; a dense prior raises NotImplementedError. logdet=False is not modelled."
  },
  {
   "property": "C42",
   "status": "proved",
   "theorems": [
    "methods_agree",
    "sparse_inverse",
    "sparse_refuses",
    "method_unknown"
   ],
   "note": "All arrays with one class and vector priors; sparse inversion is also proved to be the inverse for every positive definite matrix and to raise otherwise."
  },
  {
   "property": "C43",
   "status": "proved",
   "theorems": [
    "correlated_branch_iff"
   ],
   "note": ""
  },
  {
   "property": "C44",
   "status": "proved",
   "theorems": [
    "marginalizing_solve",
    "marginalizing_invariance",
    "marginalizing_rank_deficient"
   ],
   "note": ""
  },
  {
   "property": "C45",
   "status": "proved",
   "theorems": [
    "marginalised_explicit_gp",
    "marginalised_explicit",
    "marginalised_limit"
   ],
   "note": "Explicit bound of order 1/lambda, hence the limit; at lambda = 1e40 the constants cancel."
  },
  {
   "property": "C46",
   "status": "proved",
   "theorems": [
    "marginalizing_add",
    "marginalizing_add_vector",
    "marginalizing_shapes"
   ],
   "note": ""
  },
  {
   "property": "C47",
   "status": "partial",
   "theorems": [
    "wideband_accept",
    "wideband_bins_accepted",
    "wideband_bins_cover_partial",
    "wideband_bins_refuted"
   ],
   "note": "The exact acceptance condition is proved; acceptance implies one interval per TOA if no TOA lies in two intervals or none is left out; the general statement is refuted by an overlap and a gap."
  },
  {
   "property": "C48",
   "status": "proved",
   "theorems": [
    "wideband_dm_terms",
    "wideband_likelihood",
    "wideband_measured"
   ],
   "note": ""
  },
  {
   "property": "C49",
   "status": "proved",
   "theorems": [
    "conditional_coefficients",
    "get_coefficients_separate",
    "get_coefficients_joint",
    "get_coefficients_sparse",
    "get_coefficients_sparse_refuted",
    "get_coefficients_qr",
    "get_coefficients_qr_refuted"
   ],
   "note": "for ConditionalGP and for every branch of get_coefficients; the conditional vector solves the normal equations and is the unique minimum of the joint misfit, with and without common signals and with marginalised timing models"
  },
  {
   "property": "C50",
   "status": "proved",
   "theorems": [
    "conditional_coefficients",
    "get_coefficients_separate",
    "get_coefficients_joint",
    "get_coefficients_sparse",
    "get_coefficients_sparse_refuted",
    "get_coefficients_qr",
    "get_coefficients_qr_refuted"
   ],
   "note": "exact for ConditionalGP and the SVD branches; the QR fallback and common_sparse branches are characterised and refuted"
  },
  {
   "property": "C51",
   "status": "proved",
   "theorems": [
    "attribution",
    "attribution_joint",
    "attribution_shared",
    "attribution_separate",
    "attribution_separate_refuted",
    "timing_attribution",
    "timing_attribution_refuted"
   ],
   "note": "attribution exact when no columns are shared, IndexError otherwise; get_coefficients without common signals refuted when a common-basis signal precedes; timing-model parameters refuted with excluded columns"
  },
  {
   "property": "C52",
   "status": "proved",
   "theorems": [
    "kernel_add",
    "kernel_set",
    "kernel_slice",
    "kernel_slice_diagonal_refuted"
   ],
   "note": "Index arrays and slices, vectors and matrices; the slice/vector/matrix case is shown to fill the block."
  },
  {
   "property": "C53",
   "status": "proved",
   "theorems": [
    "coefficient_prior",
    "coefficient_delay",
    "coefficient_marginal",
    "coefficient_marginal_gp"
   ],
   "note": "density, delay and completed square (also beside another GP and with a marginalised timing model); that a Gaussian density integrates to one in k dimensions is not restated"
  },
  {
   "property": "C54",
   "status": "proved",
   "theorems": [
    "selected_basis",
    "selected_prior",
    "selected_covariance",
    "selected_prior_second_call_refuted"
   ],
   "note": "Basis for all families; prior and covariance when no vector prior meets an array that is already a matrix; the second call with mixed priors is refuted."
  },
  {
   "property": "C55",
   "status": "proved",
   "theorems": [
    "common_span",
    "same_frequencies",
    "current_basis",
    "evaluations_succeed",
    "phicross_symmetric",
    "phi_values",
    "basis_history",
    "explicit_span",
    "interleaved_refuted",
    "reused_class_refuted",
    "span_needed",
    "no_toas",
    "unevaluated"
   ],
   "note": "All programs of constructions and evaluations; the two failures named in the property are theorems with witnesses."
  },
  {
   "property": "C56",
   "status": "proved",
   "theorems": [
    "uniform_density",
    "uniform_quantile",
    "uniform_sampler",
    "uniform_degenerate"
   ],
   "note": ""
  },
  {
   "property": "C57",
   "status": "proved",
   "theorems": [
    "linexp_density",
    "linexp_pushforward",
    "linexp_quantile",
    "linexp_sampler",
    "linexp_degenerate",
    "linexp_vector"
   ],
   "note": ""
  },
  {
   "property": "C58",
   "status": "proved",
   "theorems": [
    "trunc_density",
    "trunc_conditional",
    "trunc_class",
    "trunc_scalar_draws",
    "trunc_vector_draws",
    "trunc_terminates",
    "trunc_mixed_refuted"
   ],
   "note": "Proved, with erf as its integral; also that the density is the normal density conditioned on the interval. An array of means with a scalar deviation makes the sampler raise once a value is redrawn (refuted witness)."
  },
  {
   "property": "C59",
   "status": "proved",
   "theorems": [
    "normal_mx_diag",
    "normal_mx_linear",
    "normal_mx_shape",
    "normal_mx_singular",
    "normal_density",
    "normal_shape",
    "normal_distribution",
    "normal_ppf"
   ],
   "note": "Proved, including the Gaussian integral; the matrix version for every invertible change of variables."
  },
  {
   "property": "C60",
   "status": "proved",
   "theorems": [
    "function_call",
    "function_call_raises"
   ],
   "note": "For every function whose nested functions share no keyword with it (C61 shows why): the dictionary passed on is the resolved one, up to order, and the first failing nested function makes the call fail. Values and python functions are abstract; variable argument lists are not modelled."
  },
  {
   "property": "C61",
   "status": "proved",
   "theorems": [
    "nested_takes_outer_refuted",
    "nested_unlisted_refuted",
    "outer_replaces_nested_refuted",
    "nested_listed",
    "function_parameters"
   ],
   "note": "The keywords are not kept apart (three refuted witnesses: outer parameter replaced, nested parameter missing from the parameter list, nested default replaced). With distinct keywords every nested parameter is proved to be listed."
  },
  {
   "property": "C62",
   "status": "proved",
   "theorems": [
    "function_names",
    "us_name_form",
    "function_names_nested_refuted"
   ],
   "note": "Template, stability and distinctness proved for the keywords of one function; across nesting levels two parameters can get the same name (refuted witness)."
  },
  {
   "property": "C63",
   "status": "partial",
   "theorems": [
    "sample_keys",
    "sample_fuel",
    "sample_consistent_partial",
    "sample_shared_refuted",
    "sample_chain_refuted",
    "sample_array_refuted"
   ],
   "note": "False in general: refuted for shared hyperparameters, for hyperparameters of hyperparameters, and for the parameter list of an array, which repeats hyperparameters. Proved that every parameter gets exactly one value, and consistency without sharing and with one level of hyperparameters."
  },
  {
   "property": "C64",
   "status": "proved",
   "theorems": [
    "decorator_result",
    "currying",
    "funcargs_split"
   ],
   "note": "Both directions, and that keywords given first and arguments later amount to one call."
  },
  {
   "property": "C65",
   "status": "proved",
   "theorems": [
    "basis_shape",
    "extent_spec",
    "default_frequencies",
    "spaced_frequencies",
    "default_is_linspace",
    "bases_nest",
    "explicit_frequencies"
   ],
   "note": ""
  },
  {
   "property": "C66",
   "status": "proved",
   "theorems": [
    "stationary",
    "cross_covariance",
    "shifts",
    "fourier_gp"
   ],
   "note": ""
  },
  {
   "property": "C67",
   "status": "proved",
   "theorems": [
    "dm_basis",
    "chromatic_basis",
    "temponest_basis",
    "envelope_basis",
    "chromatic_is_dm",
    "dm_at_reference",
    "general_plain",
    "general_chromatic",
    "general_flag"
   ],
   "note": "Positive radio frequencies. DM, temponest and chromatic bases ignore pseed, so they are scalings of the basis without seed."
  },
  {
   "property": "C68",
   "status": "proved",
   "theorems": [
    "powerlaw_variance",
    "turnover_shape",
    "turnover_knee_shape",
    "broken_powerlaw_shape",
    "amplitude",
    "slope",
    "spectra_positive",
    "repeated_frequency",
    "free_spectrum_values",
    "t_process_values",
    "t_process_one",
    "t_process_range",
    "genmodes_weights",
    "infinitepower_values",
    "indivisible"
   ],
   "note": "The repeated-frequency theorem also shows that decreasing frequencies give negative variances."
  },
  {
   "property": "C69",
   "status": "proved",
   "theorems": [
    "orf_symmetric",
    "anis_symmetric",
    "hd_bounds",
    "hd_minimum",
    "hd_limit",
    "orf_diagonal",
    "orf_distinct",
    "anis_isotropic",
    "anis_value"
   ],
   "note": "Real arithmetic: scalar products of unit vectors rounded above one (nan in the code) are outside the model."
  },
  {
   "property": "C70",
   "status": "proved",
   "theorems": [
    "monopole_positive",
    "dipole_positive",
    "same_position_singular"
   ],
   "note": ""
  },
  {
   "property": "C71",
   "status": "proved",
   "theorems": [
    "linear_interp",
    "linear_interp_empty",
    "linear_interp_refuted"
   ],
   "note": "Real arithmetic, in which np.arange does not overshoot; for equal TOAs the basis is empty, and that is a theorem."
  },
  {
   "property": "C72",
   "status": "proved",
   "theorems": [
    "excluded",
    "normed_span",
    "given_norms",
    "svd_span",
    "timing_refused",
    "timing_span",
    "svd_rank_refuted",
    "stable_fast",
    "stable_zero",
    "stable_slow",
    "tm_weights"
   ],
   "note": "The SVD is an oracle with the defining equations of a singular value decomposition; a zero column stays zero when it is normalised."
  },
  {
   "property": "C73",
   "status": "proved",
   "theorems": [
    "antenna_power",
    "antenna_angles",
    "bwm_shape",
    "bwm_bounded",
    "bwm_lipschitz",
    "bwm_strain",
    "bwm_source"
   ],
   "note": "Real arithmetic; directions in which the code divides by zero are excluded by hypothesis."
  },
  {
   "property": "C74",
   "status": "proved",
   "theorems": [
    "ecliptic",
    "ecliptic_inverse",
    "euler_rotation",
    "euler_orthogonal",
    "framerotate",
    "frame_lengths",
    "frame_identity"
   ],
   "note": "Real arithmetic; the ecliptic matrix is the one in constants.py, with the square-root identity of sine and cosine."
  },
  {
   "property": "C75",
   "status": "proved",
   "theorems": [
    "orbit_interpolation",
    "ephemeris_delay",
    "ephemeris_zero",
    "ephemeris_linear",
    "drift_refuted",
    "ephemeris_missing",
    "ephemeris_basis",
    "ephemeris_spectrum"
   ],
   "note": "Orbit files are given; linearity holds in all parameters but the drift rate, for which the refutation is a theorem."
  },
  {
   "property": "C76",
   "status": "proved",
   "theorems": [
    "clm_roundtrip",
    "alm_roundtrip",
    "clm_surplus",
    "alm_shape"
   ],
   "note": "healpy's layout is the documented one; complex coefficients of order zero must be real for the second direction."
  },
  {
   "property": "C77",
   "status": "proved",
   "theorems": [
    "sort_data_permutes",
    "sort_data_unsorted",
    "sort_data_stored"
   ],
   "note": ""
  },
  {
   "property": "C78",
   "status": "proved",
   "theorems": [
    "filter_data_aligned",
    "filter_data_again",
    "filter_data_one_bound",
    "filter_data_other_arrays_refuted"
   ],
   "note": "Alignment of times, errors, residuals, frequencies, flags and design-matrix rows, and idempotence, proved; false for site TOAs, telescopes, pulsar and sun positions, and for planet positions of unsorted data (refuted witness)."
  },
  {
   "property": "C79",
   "status": "proved",
   "theorems": [
    "set_flags_read_back",
    "set_flags_lengths",
    "set_flags_array"
   ],
   "note": ""
  },
  {
   "property": "C80",
   "status": "proved",
   "theorems": [
    "backend_flags_precedence",
    "backend_flags_none",
    "backend_flags_joined_refuted"
   ],
   "note": "Proved with the joined front and back end cut to the widest flag; the cut can merge different back ends (refuted witness)."
  },
  {
   "property": "C81",
   "status": "proved",
   "theorems": [
    "shared_contents",
    "shared_inflate",
    "shared_destroyed",
    "shared_unlinked_once",
    "shared_leak",
    "shared_destroy_inflated",
    "shared_status",
    "shared_write",
    "shared_deflate",
    "shared_empty_array_refuted"
   ],
   "note": "Proved for all traces; views stay readable after the block is unlinked, a block whose inflaters have all become views is never unlinked, and an empty array makes deflate raise midway (refuted witness)."
  },
  {
   "property": "C82",
   "status": "proved",
   "theorems": [
    "save_feather_fails",
    "read_saved",
    "read_noise",
    "read_many_rows_refuted"
   ],
   "note": "Saving always raises (proved); with the metadata list of the class found, the round trip is proved for planet tensors of up to ten rows and refuted for eleven."
  },
  {
   "property": "C83",
   "status": "partial",
   "theorems": [
    "get_maxobs_bound_partial",
    "get_maxobs_terminates",
    "get_maxobs_cycle",
    "get_maxobs_mixed_refuted",
    "get_maxobs_comment_refuted"
   ],
   "note": "The bound is proved for files that do not mix observations with inclusions and whose observations do not start with C; refuted otherwise. Termination exactly without cycles proved."
  },
  {
   "property": "C84",
   "status": "proved",
   "theorems": [
    "load_restores_directory",
    "load_tempo_directory",
    "load_pint_directory",
    "load_pint_clock",
    "load_missing",
    "load_nothing"
   ],
   "note": ""
  },
  {
   "property": "C85",
   "status": "proved",
   "theorems": [
    "pdist_own",
    "pdist_prefixed",
    "pdist_fails"
   ],
   "note": ""
  },
  {
   "property": "C86",
   "status": "proved",
   "theorems": [
    "summary_counts_spec",
    "summary_fixed_count_refuted"
   ],
   "note": "Counts of varying, total, fixed, pulsars proved; without listing the fixed count is always zero and common parameters are counted once per pulsar (witnesses)."
  },
  {
   "property": "C87",
   "status": "proved",
   "theorems": [
    "retry_without_failures",
    "retry_after_failure_refuted"
   ],
   "note": "Proved for histories without earlier raising evaluations; refuted for every limit after `limit` failures of the same key."
  },
  {
   "property": "C88",
   "status": "proved",
   "theorems": [
    "kernel_inverse",
    "kernel_inverse_indefinite"
   ],
   "note": "Exact for positive definite matrices; for invertible symmetric matrices that are not positive definite the returned matrix is the positive definite square root of A^-2, for every SVD routine meeting its specification."
  },
  {
   "property": "C89",
   "status": "proved",
   "theorems": [
    "ecorr_methods",
    "sparse_solve"
   ],
   "note": ""
  },
  {
   "property": "C90",
   "status": "proved",
   "theorems": [
    "wideband_default_refused"
   ],
   "note": ""
  },
  {
   "property": "C91",
   "status": "proved",
   "theorems": [
    "wideband_empty_bin",
    "wideband_empty_accepted"
   ],
   "note": ""
  },
  {
   "property": "C92",
   "status": "proved",
   "theorems": [
    "filter_data_fitpars",
    "filter_data_fitpars_refuted"
   ],
   "note": "Refuted; proved when no column vanishes."
  },
  {
   "property": "C93",
   "status": "proved",
   "theorems": [
    "list_frequencies",
    "list_frequencies_refuted"
   ],
   "note": "Refuted for lists (every list and every non-empty array of TOAs raises TypeError); explicit_frequencies (C65) is the positive part for arrays."
  },
  {
   "property": "C94",
   "status": "proved",
   "theorems": [
    "seeded_basis",
    "same_seed"
   ],
   "note": "The first TOA is taken nonnegative in the sharing theorem."
  },
  {
   "property": "C95",
   "status": "proved",
   "theorems": [
    "general_index_refuted"
   ],
   "note": "Refuted at index zero; general_chromatic (C67) is the positive part for all other indices."
  },
  {
   "property": "C96",
   "status": "proved",
   "theorems": [
    "ephemeris_dipole",
    "ephemeris_position",
    "six_columns"
   ],
   "note": ""
  },
  {
   "property": "C97",
   "status": "proved",
   "theorems": [
    "real_harm",
    "maps_agree",
    "covariance_entries",
    "covariance_positive",
    "map_response",
    "anis_basis_sum",
    "anis_orf_map",
    "response_layout",
    "response_power"
   ],
   "note": "Spherical harmonics are any functions with the conjugation symmetry; healpy's alm2map is the documented sum."
  },
  {
   "property": "C98",
   "status": "proved",
   "theorems": [
    "hd_semidefinite",
    "hd_definite",
    "hd_sharp",
    "hd_process"
   ],
   "note": "Real arithmetic. Definiteness bounds the quadratic form from below by half the squared norm; the coefficient one half is shown to be best possible."
  },
  {
   "property": "C99",
   "status": "proved",
   "theorems": [
    "det_delay",
    "det_arguments",
    "det_raises",
    "det_params"
   ],
   "note": "Masks are boolean arrays; waveforms are functions with plain arguments over numbers and arrays of one dimension."
  },
  {
   "property": "C100",
   "status": "proved",
   "theorems": [
    "det_split",
    "det_split_shared",
    "nested_mask_refuted",
    "det_depends",
    "delay_params_refuted"
   ],
   "note": "Holds for waveforms without functions among their keywords, and false with one (nested_mask_refuted); keyword values and parameters are not arrays with an entry per TOA."
  },
  {
   "property": "C101",
   "status": "proved",
   "theorems": [
    "ephem_epochs",
    "ephem_isolated",
    "ephem_none",
    "ephem_daily_refuted"
   ],
   "note": "Real arithmetic; TOAs in order where the comparison with the direct delay needs it."
  },
  {
   "property": "C102",
   "status": "proved",
   "theorems": [
    "cw_strain",
    "cw_circular",
    "cw_harmonics",
    "cw_nothing",
    "cw_harmonics_refuted",
    "cw_symmetry",
    "cw_amplitude",
    "cw_mass_array_refuted",
    "cw_mass_wave_refuted"
   ],
   "note": "Real arithmetic; the Bessel functions are given, those defined by Bessel's integral satisfy the hypothesis on their values at zero. Numbers of harmonics and in-place scaling: refutations are theorems."
  },
  {
   "property": "C103",
   "status": "proved",
   "theorems": [
    "peters_relation",
    "inspiral_exists",
    "orbit_monotone",
    "orbit_signs",
    "orbit_chirp",
    "enhancement_incr",
    "orbit_precession",
    "orbit_constant",
    "orbit_constant_exists"
   ],
   "note": "Real arithmetic, positive masses and frequencies; the numerical integrator is not modelled, the claim is about exact solutions of the equations the code hands to it."
  },
  {
   "property": "C104",
   "status": "proved",
   "theorems": [
    "pdf_logpdf",
    "value_lookup",
    "user_parameter",
    "gp_coefficients",
    "uniform_scalar",
    "uniform_bounds",
    "uniform_vector",
    "uniform_vector_bounds",
    "uniform_quantiles",
    "uniform_sampling",
    "resample",
    "sampler_keywords",
    "sampler_size",
    "same_arguments_refuted",
    "vector_length_refuted"
   ],
   "note": "Real arithmetic with minus infinity and nan. The documented form of a sampler and the missing check of vector lengths: refutations are theorems."
  },
  {
   "property": "C105",
   "status": "proved",
   "theorems": [
    "pos_angles",
    "pos_separation",
    "pos_injective",
    "pos_surjective",
    "position_agrees",
    "position_B",
    "cluster_epoch_refuted",
    "radec_missing",
    "pint_radec_spec"
   ],
   "note": "Real arithmetic; pyephem's conversion is an oracle, exact for J2000 where the theorem needs it. Names with a B: refutation is a theorem."
  },
  {
   "property": "C106",
   "status": "proved",
   "theorems": [
    "pint_dmx",
    "t2_dmx",
    "fit_refuted",
    "frozen_refuted",
    "setpars_unfitted",
    "pint_flags_spec",
    "pint_planetssb_spec",
    "pint_planets_missing",
    "pint_sunssb_spec"
   ],
   "note": "The timing packages are tables of values. The meaning of fit and frozen DMX parameters: refutations are theorems."
  },
  {
   "property": "C107",
   "status": "proved",
   "theorems": [
    "t2_planets",
    "t2_masses",
    "t2_solar_system",
    "second_pulsar",
    "second_pulsar_refuted"
   ],
   "note": "tempo2 is any function of the values of its parameters. Equality of the second pulsar holds for zero mass corrections; the general statement is refuted by a theorem."
  },
  {
   "property": "C108",
   "status": "proved",
   "theorems": [
    "pint_picklable",
    "t2_picklable",
    "drop_pintpsr_spec",
    "drop_twice_refuted"
   ],
   "note": "Objects are sets of attribute names. Repeated drops: refutation is a theorem."
  },
  {
   "property": "C109",
   "status": "proved",
   "theorems": [
    "gp_history",
    "after_error_refuted",
    "after_error_density_refuted",
    "constant_basis_refuted",
    "coefficient_density",
    "broadcast_density_refuted"
   ],
   "note": "Real arithmetic. Prior and basis functions are any functions of their arguments; nested functions are excluded. Failed calls and constants overridden through params: refutations are theorems."
  },
  {
   "property": "C110",
   "status": "proved",
   "theorems": [
    "marginal_parameters",
    "sampled_parameters",
    "selection_names",
    "selection_keyword_refuted",
    "shared_keyword_refuted"
   ],
   "note": "For parameters that are the same whenever they have the same name; the other cases are refuted by theorems."
  },
  {
   "property": "C111",
   "status": "proved",
   "theorems": [
    "common_delays",
    "common_given_refuted"
   ],
   "note": "For coefficients whose name contains _coefficients; other names are refuted by a theorem."
  },
  {
   "property": "C112",
   "status": "proved",
   "theorems": [
    "ecorr_same_covariance",
    "ecorr_same_likelihood",
    "ecorr_no_epochs",
    "ecorr_same_refuted"
   ],
   "note": "Sherman-Morrison, sparse and block methods; the fast Sherman-Morrison package is not modelled. The block method needs other signals with none or more than one column (C29). The case without epochs is refuted."
  },
  {
   "property": "C113",
   "status": "proved",
   "theorems": [
    "array_history",
    "signals_history",
    "array_exception_refuted",
    "array_constant_refuted",
    "array_sampled_refuted"
   ],
   "note": "Any arithmetic on arrays. Signals that return an object and change it later (sparse ECORR, PhysicalEphemerisSignal) are C05's and excluded. The three failures named in the property are theorems with witnesses."
  },
  {
   "property": "C114",
   "status": "proved",
   "theorems": [
    "array_likelihood",
    "array_correlated"
   ],
   "note": "Exact reals; signals are any that answer as in C113. One class of common signals (several: C116), with one member in every pulsar and a prior given as a vector; for the methods cliques and partition all priors are vectors. The hash of columns without collisions. Cholesky factors are exact; SVD is not reached for proper priors."
  },
  {
   "property": "C115",
   "status": "proved",
   "theorems": [
    "signals_likelihood",
    "signals_correlated"
   ],
   "note": "Exact reals; priors are vectors. One class of common processes, in every pulsar or in none but one. ECORR and marginalised timing models are in C117, other classes with their own methods are covered by C114 as signals that answer. The hash of columns without collisions."
  },
  {
   "property": "C116",
   "status": "proved",
   "theorems": [
    "array_classes"
   ],
   "note": "Exact reals; priors of common signals are vectors, every pulsar has a process. For cliques: any two classes in several pulsars have in every pulsar either no column in common, or both or neither of them with the same columns combined; other overlaps are refuted at C40 (cliques_refuted). The hash of columns without collisions."
  },
  {
   "property": "C117",
   "status": "proved",
   "theorems": [
    "kinds_ecorr",
    "kinds_ecorr_empty",
    "kinds_likelihood",
    "kinds_classes"
   ],
   "note": "Exact reals; priors are vectors. The sparse ECORR method changes the matrix it returned before (C05) and is left out, as is the package of the fast Sherman-Morrison method; values of ECORR parameters are numbers. kinds_ecorr orders the noise of a pulsar as white noise, timing model, ECORR; kinds_likelihood and kinds_classes hold for every order whose noise adds up. The hash of columns without collisions."
  },
  {
   "property": "C118",
   "status": "proved",
   "theorems": [
    "kinds_likelihood",
    "kinds_classes",
    "kinds_wideband"
   ],
   "note": "Exact reals; values of the parameters are numbers; data and masks as long as stoas. kinds_wideband gives the term of a pulsar, kinds_likelihood and kinds_classes the sum or the joint density (there the marginal form of the pulsar model). The meaning as an integral is by splitting off a normalised density of the timing parameters."
  },
  {
   "property": "C119",
   "status": "proved",
   "theorems": [
    "wideband_chi2",
    "wideband_chi2_empty"
   ],
   "note": "Exact reals, at given DMs and uncertainties."
  },
  {
   "property": "C120",
   "status": "proved",
   "theorems": [
    "standard_likelihood",
    "standard_shapes",
    "standard_span",
    "standard_keyword",
    "standard_bases"
   ],
   "note": "Exact reals. Default options of the factories; selections of processes given by their masks; a common signal in every pulsar. Fourier columns of one process in a pulsar must be different from each other, and different columns have different hashes. Epochs of ECORR are described by what they hold (members within a second, simultaneous TOAs of a selection together), not determined. For prior functions other than powerlaw and free_spectrum the hypothesis says what their call returns."
  },
  {
   "property": "C121",
   "status": "proved",
   "theorems": [
    "noise_likelihood"
   ],
   "note": "As C120. Two processes with the same name in a pulsar are not excluded: the hypothesis on values then concerns both."
  },
  {
   "property": "C122",
   "status": "proved",
   "theorems": [
    "defaults_made",
    "defaults_common",
    "hidden_defaults_refuted",
    "standard_defaults",
    "noise_defaults",
    "late_defaults",
    "late_defaults_refuted"
   ],
   "note": "Exact reals; values of the dictionary are numbers. The theorem late_defaults_refuted records that the order matters (see C04). Prior functions other than powerlaw and free_spectrum must not have a constant and a parameter of the same name. Functions given as keywords are covered if their constants are not hidden (hidden_defaults_refuted). Sampled coefficients (whose basis is computed at construction) and DM jumps with a reference label are not covered."
  },
  {
   "property": "C123",
   "status": "proved",
   "theorems": [
    "standard_turnover",
    "standard_knee",
    "standard_broken"
   ],
   "note": "Exact reals; real powers of positive numbers. A keyword without default that is left out is not covered."
  },
  {
   "property": "C124",
   "status": "proved",
   "theorems": [
    "powerlaw_slope",
    "turnover_slope",
    "knee_slope",
    "broken_slope",
    "broken_limits",
    "broken_sides",
    "broken_documented_refuted"
   ],
   "note": "Exact reals; real powers of positive numbers. broken_documented_refuted records that the docstring of broken_powerlaw has its slopes exchanged."
  },
  {
   "property": "C125",
   "status": "proved",
   "theorems": [
    "parameter_names",
    "standard_names",
    "defaults_names"
   ],
   "note": "Names as a set: order and repetitions are left to the claims about PTA.params (ModelParams.v). Functions that take functions, sampled coefficients of common processes, and parameters of priors of parameters are not covered."
  },
  {
   "property": "C126",
   "status": "proved",
   "theorems": [
    "white_names_distinct",
    "white_owner",
    "shared_names_refuted"
   ],
   "note": "Names as strings of characters. shared_names_refuted records that names collide once pulsar names have underscores."
  }
 ]
}