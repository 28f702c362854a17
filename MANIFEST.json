{
 "claims": [
  {
   "property": "C01",
   "status": "proved",
   "theorems": [
    "C01_chunk_count",
    "C01_partition",
    "C01_chunk_increasing",
    "C01_balanced"
   ],
   "note": "split_arr_into_chunks for every n and every ncpu >= 1."
  },
  {
   "property": "C02",
   "status": "proved",
   "theorems": [
    "C02_polar_matrix_any_schedule",
    "C02_polar_never_fails",
    "C02_polar_can_finish",
    "C02_polar_schedule_independent"
   ],
   "note": "Every schedule, worker count and memory content; harmonics at the edge are an argument (ssht is external)."
  },
  {
   "property": "C03",
   "status": "proved",
   "theorems": [
    "C03_arbitrary_matrix_any_schedule",
    "C03_arbitrary_never_fails",
    "C03_arbitrary_can_finish"
   ],
   "note": "Symmetry of the synthesised harmonics under m -> -m is an explicit hypothesis (ssht is external)."
  },
  {
   "property": "C04",
   "status": "proved",
   "theorems": [
    "C04_mesh_matrix_any_schedule",
    "C04_mesh_never_fails",
    "C04_mesh_can_finish"
   ],
   "note": ""
  },
  {
   "property": "C05",
   "status": "proved",
   "theorems": [
    "C05_matrix",
    "C05_schedule",
    "C05_interleaved",
    "C05_hermitian",
    "C05_energy",
    "C05_eigenvalues"
   ],
   "note": "Wigner values are an argument (ssht is external); every order of the parallel iterations and every interleaving of their loads and stores. The eigenvalue range assumes the harmonics built from them are orthonormal."
  },
  {
   "property": "C06",
   "status": "proved",
   "theorems": [
    "C06_polar_failure_not_reported",
    "C06_arbitrary_failure_not_reported",
    "C06_mesh_failure_not_reported",
    "C06_failing_worker_raises_refuted"
   ],
   "note": "The expected property is false of the code; proved as a refutation with a witness, plus what happens for every failure and schedule (caller returns normally, columns of the failed worker are zero)."
  },
  {
   "property": "C07",
   "status": "proved",
   "theorems": [
    "C07_polar_protocol_safe",
    "C07_arbitrary_protocol_safe",
    "C07_mesh_protocol_safe",
    "C07_caller_waits",
    "C07_polar_clean_exit",
    "C07_arbitrary_clean_exit",
    "C07_mesh_clean_exit",
    "C07_mapping_closed_on_failure_refuted"
   ],
   "note": "Safety for every schedule and every injected worker failure; clean exit when no worker fails; refutation of clean exit when one fails."
  },
  {
   "property": "C08",
   "status": "proved",
   "theorems": [
    "C08_classification",
    "C08_fields_kept",
    "C08_default_region_whole_degrees",
    "C08_default_region_south_america",
    "C08_default_region_fields"
   ],
   "note": ""
  },
  {
   "property": "C09",
   "status": "proved",
   "theorems": [
    "C09_value_error",
    "C09_nonempty_refuted"
   ],
   "note": "Every invalid angle is rejected; that an accepted region is not empty is refuted (the order of the bounds is not checked)."
  },
  {
   "property": "C10",
   "status": "proved",
   "theorems": [
    "C10_solver_recreates_region",
    "C10_zero_cap_rejected"
   ],
   "note": "The constructed region determines the solver class and parameters; zero caps are rejected."
  },
  {
   "property": "C11",
   "status": "proved",
   "theorems": [
    "C11_evals_history_independent",
    "C11_whole_degree_regions"
   ],
   "note": "Any interleaving and deaths of any number of processes; whole-file writes atomic; registry contents sound by hypothesis."
  },
  {
   "property": "C12",
   "status": "proved",
   "theorems": [
    "C12_ranks_below_N",
    "C12_small_polar_complete",
    "C12_full_refuted"
   ],
   "note": "The full claim is false of the code (C12_full_refuted); proved for ranks below N and for small polar caps."
  },
  {
   "property": "C13",
   "status": "proved",
   "theorems": [
    "C13_recovers",
    "C13_torn_write_refuted",
    "C13_concurrent_torn_read_refuted"
   ],
   "note": "Proved for deaths between whole-file writes, any interleaving; refuted inside a write."
  },
  {
   "property": "C14",
   "status": "proved",
   "theorems": [
    "C14_whole_degrees_distinct",
    "C14_distinct_refuted",
    "C14_solver_classes_share_refuted",
    "C14_imitating_mask_refuted"
   ],
   "note": "Proved for whole-degree angles and masks that do not imitate generated names; refuted in general by three witnesses."
  },
  {
   "property": "C15",
   "status": "proved",
   "theorems": [
    "C15_one_order_any_history",
    "C15_truncated_cache",
    "C15_order_array_refuted",
    "C15_order_array"
   ],
   "note": "Complete caches (L <= 16) proved; truncated caches characterised exactly; order arrays refuted."
  },
  {
   "property": "C16",
   "status": "proved",
   "theorems": [
    "C16_argsort_exists",
    "C16_lat_lon",
    "C16_arbitrary",
    "C16_mesh"
   ],
   "note": "The eigenproblem solver is an argument; its LAPACK contract is a hypothesis."
  },
  {
   "property": "C17",
   "status": "proved",
   "theorems": [
    "C17_one_order",
    "C17_all_orders"
   ],
   "note": ""
  },
  {
   "property": "C18",
   "status": "proved",
   "theorems": [
    "C18_lower_kept",
    "C18_upper_is_conjugate",
    "C18_idempotent",
    "C18_ignores_upper",
    "C18_hermitian_iff_real_diagonal"
   ],
   "note": ""
  },
  {
   "property": "C19",
   "status": "proved",
   "theorems": [
    "C19_degree_order_round_trip",
    "C19_index_round_trip",
    "C19_order_vector",
    "C19_order_count"
   ],
   "note": ""
  },
  {
   "property": "C20",
   "status": "proved",
   "theorems": [
    "C20_noise_reality",
    "C20_noise_draws",
    "C20_noise_field_real",
    "C20_wmap_reality",
    "C20_wmap_draws",
    "C20_wmap_short_spectrum",
    "C20_deterministic"
   ],
   "note": ""
  },
  {
   "property": "C21",
   "status": "proved",
   "theorems": [
    "C21_snr_exact",
    "C21_noise_power",
    "C21_achieved_snr",
    "C21_expected_power",
    "C21_scaling",
    "C21_sigma",
    "C21_monotone",
    "C21_add_noise",
    "C21_no_noise",
    "C21_mesh_noise"
   ],
   "note": ""
  },
  {
   "property": "C22",
   "status": "proved",
   "theorems": [
    "C22_pointwise",
    "C22_mismatch",
    "C22_shrinks",
    "C22_idempotent",
    "C22_harmonic",
    "C22_harmonic_short",
    "C22_harmonic_zero",
    "C22_slepian",
    "C22_slepian_function",
    "C22_slepian_zero_refuted"
   ],
   "note": "Exact shrinkage and idempotence proved; for Slepian coefficients the zero threshold is refuted to be the identity because the sphere weights are not exact."
  },
  {
   "property": "C23",
   "status": "proved",
   "theorems": [
    "C23_entries",
    "C23_linear",
    "C23_conjugate_linear",
    "C23_unit",
    "C23_swap",
    "C23_truncation",
    "C23_rows",
    "C23_row_pairs",
    "C23_mismatch"
   ],
   "note": ""
  },
  {
   "property": "C24",
   "status": "proved",
   "theorems": [
    "C24_forward_of_inverse",
    "C24_inverse",
    "C24_energy",
    "C24_inverse_of_forward",
    "C24_best_approximation",
    "C24_short_input"
   ],
   "note": ""
  },
  {
   "property": "C25",
   "status": "proved",
   "theorems": [
    "C25_dispatch",
    "C25_nothing_given",
    "C25_rank_range",
    "C25_count",
    "C25_too_many",
    "C25_region_is_harmonic_sum",
    "C25_sphere_is_harmonic_sum_refuted"
   ],
   "note": "Dispatch and rank checks proved; the sphere integral is refuted to equal the harmonic sum, by the deficit of the weights."
  },
  {
   "property": "C26",
   "status": "proved",
   "theorems": [
    "C26_forward",
    "C26_round_trip",
    "C26_full_signal",
    "C26_energy",
    "C26_round_trip_refuted",
    "C26_one_dimensional",
    "C26_slepian_wavelets",
    "C26_stable"
   ],
   "note": "Round trip proved for admissible wavelets when only the last scales miss the signal; refuted when an earlier scale does (its row is dropped)."
  },
  {
   "property": "C27",
   "status": "proved",
   "theorems": [
    "C27_forward",
    "C27_round_trip",
    "C27_wavelets",
    "C27_energy",
    "C27_only_tight",
    "C27_stable"
   ],
   "note": ""
  },
  {
   "property": "C28",
   "status": "proved",
   "theorems": [
    "C28_forward_inverse",
    "C28_inverse_value",
    "C28_projection",
    "C28_wrong_length",
    "C28_masked",
    "C28_methods_agree",
    "C28_slepian_round_trip",
    "C28_pipeline",
    "C28_rank_error"
   ],
   "note": ""
  },
  {
   "property": "C29",
   "status": "proved",
   "theorems": [
    "C29_normalised",
    "C29_orthogonal",
    "C29_decomposition"
   ],
   "note": ""
  },
  {
   "property": "C30",
   "status": "proved",
   "theorems": [
    "C30_vertices",
    "C30_faces"
   ],
   "note": ""
  },
  {
   "property": "C31",
   "status": "proved",
   "theorems": [
    "C31_boost",
    "C31_below",
    "C31_transitive",
    "C31_samples"
   ],
   "note": ""
  },
  {
   "property": "C32",
   "status": "proved",
   "theorems": [
    "C32_polar_mask",
    "C32_lat_lon_mask",
    "C32_mask_shape",
    "C32_polar_mask_grows",
    "C32_gap_mask_symmetric",
    "C32_continent_mask",
    "C32_unknown_mask_rejected",
    "C32_mask_reloaded",
    "C32_wrong_shape_rejected"
   ],
   "note": ""
  },
  {
   "property": "C33",
   "status": "proved",
   "theorems": [
    "C33_polar_area",
    "C33_lat_lon_area",
    "C33_gap_area_refuted",
    "C33_shannon_close",
    "C33_shannon_polar_range",
    "C33_shannon_lat_lon_range",
    "C33_shannon_monotone"
   ],
   "note": "Areas and Shannon numbers proved, refuted for the double cap (half the area)."
  },
  {
   "property": "C34",
   "status": "proved",
   "theorems": [
    "C34_table",
    "C34_symmetry"
   ],
   "note": ""
  },
  {
   "property": "C35",
   "status": "proved",
   "theorems": [
    "C35_total",
    "C35_zero_outside_selection",
    "C35_racah",
    "C35_column_swap",
    "C35_reflection",
    "C35_parity"
   ],
   "note": ""
  },
  {
   "property": "C36",
   "status": "proved",
   "theorems": [
    "C36_power_of_two",
    "C36_bounds",
    "C36_monotone_refuted"
   ],
   "note": "Bounds and powers of two for all bandlimits; monotone inside each band, refuted across bands."
  },
  {
   "property": "C37",
   "status": "proved",
   "theorems": [
    "C37_nearest",
    "C37_error",
    "C37_exact",
    "C37_circle_refuted"
   ],
   "note": "Nearest sample proved on the line; refuted on the circle near 2 pi."
  },
  {
   "property": "C38",
   "status": "proved",
   "theorems": [
    "C38_range",
    "C38_constant",
    "C38_zero",
    "C38_off",
    "C38_near_constant_refuted",
    "C38_zero_maximum_refuted"
   ],
   "note": "Range and order proved above the constant threshold; refuted for nearly constant data and zero maxima."
  },
  {
   "property": "C39",
   "status": "proved",
   "theorems": [
    "C39_closest",
    "C39_rounding",
    "C39_angles",
    "C39_angles_exact",
    "C39_args",
    "C39_args_refuted",
    "C39_tiny",
    "C39_wavelet_ending"
   ],
   "note": "Names proved to distinguish angles and arguments up to their rendering; refuted for fractions above one."
  },
  {
   "property": "C40",
   "status": "proved",
   "theorems": [
    "C40_names",
    "C40_class",
    "C40_mesh_class",
    "C40_map",
    "C40_checks",
    "C40_conversion",
    "C40_lower",
    "C40_underscores"
   ],
   "note": ""
  },
  {
   "property": "C41",
   "status": "proved",
   "theorems": [
    "C41_keywords",
    "C41_count",
    "C41_values",
    "C41_total",
    "C41_unknown_keyword",
    "C41_harmonic",
    "C41_assign",
    "C41_assign_degree_refuted",
    "C41_rank_keyword_refuted",
    "C41_region",
    "C41_mesh_keywords",
    "C41_mesh_count",
    "C41_mesh_values"
   ],
   "note": "Accepted values proved in range; two routes that skip a check refuted."
  },
  {
   "property": "C42",
   "status": "proved",
   "theorems": [
    "C42_earth_coefficients",
    "C42_earth_reality",
    "C42_earth_prefix",
    "C42_earth_short_table",
    "C42_smoothing"
   ],
   "note": ""
  },
  {
   "property": "C43",
   "status": "proved",
   "theorems": [
    "C43_unit_vector",
    "C43_other_ranks"
   ],
   "note": ""
  },
  {
   "property": "C44",
   "status": "proved",
   "theorems": [
    "C44_flm",
    "C44_flm_samples",
    "C44_dirac",
    "C44_fp",
    "C44_fp_shannon",
    "C44_fp_length",
    "C44_off_grid"
   ],
   "note": ""
  },
  {
   "property": "C45",
   "status": "proved",
   "theorems": [
    "C45_gap_doubles_even_kills_odd"
   ],
   "note": ""
  },
  {
   "property": "C46",
   "status": "proved",
   "theorems": [
    "C46_wmap_prefix",
    "C46_noise_prefix"
   ],
   "note": ""
  },
  {
   "property": "C47",
   "status": "proved",
   "theorems": [
    "C47_masked",
    "C47_angles",
    "C47_not_closed"
   ],
   "note": ""
  },
  {
   "property": "C48",
   "status": "proved",
   "theorems": [
    "C48_range",
    "C48_monotone",
    "C48_no_vertices"
   ],
   "note": ""
  },
  {
   "property": "C49",
   "status": "proved",
   "theorems": [
    "C49_lat_lon_sign_canonical",
    "C49_arbitrary_sign_canonical",
    "C49_lat_lon_first",
    "C49_arbitrary_phase",
    "C49_polar_order_zero_sign_canonical",
    "C49_polar_other_orders_keep_sign",
    "C49_polar_sign_canonical_refuted"
   ],
   "note": "Refuted for polar orders other than 0, proved elsewhere."
  },
  {
   "property": "C50",
   "status": "proved",
   "theorems": [
    "C50_draws",
    "C50_variance",
    "C50_successive"
   ],
   "note": ""
  },
  {
   "property": "C51",
   "status": "proved",
   "theorems": [
    "C51_weights",
    "C51_poles",
    "C51_integral_of_one",
    "C51_exactness_refuted",
    "C51_one_degree"
   ],
   "note": "Exact weights and integral of one for every bandlimit; exactness refuted with the size of the deficit."
  },
  {
   "property": "C52",
   "status": "proved",
   "theorems": [
    "C52_noise",
    "C52_added",
    "C52_full_length_refuted",
    "C52_identity_refuted"
   ],
   "note": "Added noise proved; refuted for functions that keep all coefficients."
  },
  {
   "property": "C53",
   "status": "proved",
   "theorems": [
    "C53_gaussian",
    "C53_gaussian_zero",
    "C53_harmonic_gaussian",
    "C53_harmonic_gaussian_not_real",
    "C53_dirac",
    "C53_spherical_harmonic",
    "C53_identity_reality_refuted",
    "C53_ring",
    "C53_squashed",
    "C53_elongated",
    "C53_ridgelets"
   ],
   "note": "Closed forms and reality flags proved; the flag of the identity refuted."
  },
  {
   "property": "C54",
   "status": "proved",
   "theorems": [
    "C54_wavelets",
    "C54_rejected",
    "C54_coefficients",
    "C54_index_error_refuted",
    "C54_wrong_scale_refuted"
   ],
   "note": "Accepted scales select the generated wavelet; coefficients proved when no scale up to it misses the signal, index error and wrong scale refuted otherwise."
  },
  {
   "property": "C55",
   "status": "proved",
   "theorems": [
    "C55_white",
    "C55_axisymmetric",
    "C55_slepian",
    "C55_textbook"
   ],
   "note": ""
  },
  {
   "property": "C56",
   "status": "proved",
   "theorems": [
    "C56_concentration",
    "C56_range",
    "C56_optimal",
    "C56_trace"
   ],
   "note": ""
  },
  {
   "property": "C57",
   "status": "proved",
   "theorems": [
    "C57_thresholding",
    "C57_zero_threshold",
    "C57_noise",
    "C57_add_noise",
    "C57_sigma"
   ],
   "note": ""
  },
  {
   "property": "C58",
   "status": "proved",
   "theorems": [
    "C58_basis_function",
    "C58_basis_limit",
    "C58_basis_keyword",
    "C58_rejected",
    "C58_slepian_function",
    "C58_noise_field_refuted",
    "C58_slepian_field"
   ],
   "note": "Rank selection and fields proved; the noise field of a mesh refuted to be buildable."
  },
  {
   "property": "C59",
   "status": "proved",
   "theorems": [
    "C59_surface",
    "C59_closed",
    "C59_unit",
    "C59_region",
    "C59_values",
    "C59_no_upsampling",
    "C59_unknown_type",
    "C59_wrong_size"
   ],
   "note": ""
  },
  {
   "property": "C60",
   "status": "proved",
   "theorems": [
    "C60_limits",
    "C60_fixed",
    "C60_normalised",
    "C60_mesh",
    "C60_mesh_normalised",
    "C60_mesh_fixed",
    "C60_mesh_marker_refuted"
   ],
   "note": "Limits proved; the marker of mesh plots refuted to lie below all data."
  },
  {
   "property": "C61",
   "status": "proved",
   "theorems": [
    "C61_noise_amplitude",
    "C61_mesh_noise_amplitude",
    "C61_max_amplitude",
    "C61_spin_refuted"
   ],
   "note": "Amplitudes proved without spin; refuted with spin."
  },
  {
   "property": "C62",
   "status": "proved",
   "theorems": [
    "C62_identified",
    "C62_harmonic",
    "C62_refuted",
    "C62_region",
    "C62_earth",
    "C62_dirac_delta",
    "C62_slepian_rank",
    "C62_mesh",
    "C62_mesh_region_refuted"
   ],
   "note": "Names identify functions whose numbers have a rendering; refuted in general, with witnesses."
  },
  {
   "property": "C63",
   "status": "proved",
   "theorems": [
    "C63_rotate",
    "C63_rotate_slepian",
    "C63_translate",
    "C63_translate_delta",
    "C63_translate_slepian",
    "C63_convolve",
    "C63_convolve_slepian",
    "C63_view",
    "C63_reality",
    "C63_figure",
    "C63_slepian_figure",
    "C63_slepian_earth_refuted"
   ],
   "note": "Every command proved to show the requested function; the Earth view of a Slepian convolution refuted."
  },
  {
   "property": "C64",
   "status": "proved",
   "theorems": [
    "C64_identified",
    "C64_same_figure",
    "C64_annotations_refuted",
    "C64_angles_refuted"
   ],
   "note": "File names identify figures; refuted for annotations and for angles closer than the rounding."
  },
  {
   "property": "C65",
   "status": "proved",
   "theorems": [
    "C65_functions",
    "C65_optimal",
    "C65_shannon"
   ],
   "note": "Assumes of the external calls: the Wigner table holds the textbook harmonics (SpecHarmonics.textbook: Ferrers functions of the three-term recurrence, Condon-Shortley phase) and eigh returns an orthonormal eigenbasis; both are met by the shown case. Orthonormality and the addition theorem of the harmonics are proved, not assumed. C65_optimal quantifies over all band-limited functions."
  },
  {
   "property": "C66",
   "status": "proved",
   "theorems": [
    "C66_entry",
    "C66_orders",
    "C66_functions",
    "C66_rotation",
    "C66_optimal",
    "C66_shannon"
   ],
   "note": "Assumes that ssht returns the textbook harmonics (SpecHarmonics.textbook) and eigh an orthonormal eigenbasis; met by the two shown cases. The expansion of a product of two harmonics in Legendre polynomials with 3j coefficients is proved from the recurrence and Racah's formula (ThreeJProofs, AssocProofs, TextbookProofs). The factor 2 for gaps is the finding of C33."
  },
  {
   "property": "C67",
   "status": "proved",
   "theorems": [
    "C67_functions",
    "C67_optimal",
    "C67_shannon",
    "C67_at_most_one_refuted"
   ],
   "note": "Sums over the sampling grid stand for integrals over the region, as in the code. Assumes that ssht samples the textbook harmonics (SpecHarmonics.textbook) and that eigh returns an orthonormal eigenbasis; met by the shown case. The bound 1 is refuted for every eigensolver."
  },
  {
   "property": "C68",
   "status": "proved",
   "theorems": [
    "C68_orders",
    "C68_degrees",
    "C68_legendre",
    "C68_product"
   ],
   "note": "computed w says that w lists the values of the code; the example gives the w. The sign of the symbols is pinned by C35 (equality with Racah's formula). C68_product assumes that ssht returns the textbook harmonics."
  },
  {
   "property": "C69",
   "status": "proved",
   "theorems": [
    "C69_coefficients",
    "C69_map",
    "C69_map_land",
    "C69_map_again",
    "C69_default_region",
    "C69_default_africa_refuted",
    "C69_slepian_map",
    "C69_earth_noise",
    "C69_slepian_noise",
    "C69_wavelets",
    "C69_spin",
    "C69_family",
    "C69_slepian_wavelets",
    "C69_slepian_function",
    "C69_dirac"
   ],
   "note": "C69_coefficients excludes Identity, which is flagged real but is not (C53). The solver and the mask files are state: the solver is an argument, assumed to find the second time what it left the first time where a class solves twice. C69_default_africa_refuted is the finding that the defaults never work."
  },
  {
   "property": "C70",
   "status": "proved",
   "theorems": [
    "C70_variance",
    "C70_measured",
    "C70_unbiased_refuted",
    "C70_first_run_refuted",
    "C70_slepian",
    "C70_slepian_places",
    "C70_progressive",
    "C70_progressive_refuted",
    "C70_denoise_axisym",
    "C70_denoise_axisym_zero",
    "C70_denoise_axisym_all",
    "C70_denoise_slepian",
    "C70_denoise_slepian_all",
    "C70_denoise_slepian_refuted",
    "C70_denoise_function"
   ],
   "note": "The figures, the log messages and the printed errors are not modelled. C70_unbiased_refuted, C70_first_run_refuted, C70_progressive_refuted and C70_denoise_slepian_refuted are findings. The random draws are any finite ensemble of streams with unit second moments and no correlation."
  },
  {
   "property": "C71",
   "status": "proved",
   "theorems": [
    "C71_harmonics",
    "C71_table",
    "C71_orthonormal",
    "C71_box",
    "C71_box_functions",
    "C71_cap_functions",
    "C71_mask_functions"
   ],
   "note": "Assumes of ssht only Wigner's closed formula for generate_dl at pi/2 (phase convention d^1_10 = -sin/sqrt 2) and the textbook harmonics for create_ylm and inverse; of eigh that it decomposes the matrix."
  },
  {
   "property": "C72",
   "status": "proved",
   "theorems": [
    "C72_basis_functions",
    "C72_field",
    "C72_slepian_functions",
    "C72_slepian_field",
    "C72_slepian_noise_field",
    "C72_noise_field_refuted",
    "C72_wavelets",
    "C72_wavelet_coefficients",
    "C72_noise",
    "C72_noised_wavelets_refuted",
    "C72_positions",
    "C72_mirror_refuted",
    "C72_colours",
    "C72_command",
    "C72_command_first",
    "C72_region",
    "C72_denoising",
    "C72_denoising_zero",
    "C72_denoising_demo"
   ],
   "note": "igl, trimesh and plotly are outside: the normals, the eigenfunctions and the random draws are arguments, and the figure is the data handed to plotly. C72_noise_field_refuted, C72_noised_wavelets_refuted and C72_mirror_refuted are findings. C72_denoising counts the remaining rows as the code does (see finding 33)."
  },
  {
   "property": "C73",
   "status": "proved",
   "theorems": [
    "C73_eigh",
    "C73_eigh_real",
    "C73_box_answers",
    "C73_cap_answers",
    "C73_mask_answers",
    "C73_box_unique",
    "C73_cap_unique",
    "C73_mask_unique",
    "C73_cap_is_box",
    "C73_box_determined",
    "C73_cap_determined",
    "C73_mask_determined"
   ],
   "note": "The eigensolver, the sort and the order of the work are arguments of the model; the theorems compare two arbitrary choices of them. Exact arithmetic: nearly equal eigenvalues count as different."
  },
  {
   "property": "C74",
   "status": "proved",
   "theorems": [
    "C74_turned",
    "C74_mirrored",
    "C74_complement",
    "C74_box_grows",
    "C74_cap_grows",
    "C74_box_in_cap",
    "C74_mask_grows"
   ],
   "note": "C74_mask_grows compares masks on one grid, because the grid of an arbitrary region depends on the band limit."
  },
  {
   "property": "C75",
   "status": "proved",
   "theorems": [
    "C75_meridian",
    "C75_real_part",
    "C75_rank",
    "C75_pairs",
    "C75_ranked",
    "C75_eigenvalues",
    "C75_ticks",
    "C75_coefficients"
   ],
   "note": "The figures are the points, lines and ticks handed to matplotlib and seaborn. C75_real_part needs the order m: for negative orders the plotted real part is zero by the phase of the rows, which the figures avoid by using m >= 0."
  },
  {
   "property": "C76",
   "status": "proved",
   "theorems": [
    "C76_norms",
    "C76_symmetric",
    "C76_ricker",
    "C76_ricker_value"
   ],
   "note": "Times are exact multiples of the step; np.arange of floats may return one sample more or less."
  },
  {
   "property": "C77",
   "status": "proved",
   "theorems": [
    "C77_tiling",
    "C77_sparsity",
    "C77_reconstruction",
    "C77_errors",
    "C77_error_region",
    "C77_error_sphere_refuted"
   ],
   "note": "C77_error_sphere_refuted is a finding. Where the exact coefficient is 0 the plotted error is inf or nan in numpy; the theorems give no meaning to that value."
  },
  {
   "property": "C78",
   "status": "proved",
   "theorems": [
    "C78_exact",
    "C78_matrix",
    "C78_box",
    "C78_cap",
    "C78_mask"
   ],
   "note": "Only eigh (and, through C78_matrix, the matrix) is inexact; the later sorting, sign fixing and sums over coefficients are exact. eta is a hypothesis: LAPACK documents it as a modest multiple of the machine precision. C78_cap_case gives numbers for the hemisphere."
  },
  {
   "property": "C79",
   "status": "proved",
   "theorems": [
    "C79_answers",
    "C79_run",
    "C79_unique",
    "C79_approximation",
    "C79_complement",
    "C79_grows",
    "C79_rank",
    "C79_shannon",
    "C79_rounded"
   ],
   "note": "The mesh analogue of C73, C74 and C78. C28_pipeline asks for a solver that is right on every symmetric matrix; C79_run asks for the one matrix at hand, and C79_answers shows that this can always be met. Kernels and functions are compared only where the eigenvalues separate, as nothing else is determined."
  },
  {
   "property": "C80",
   "status": "proved",
   "theorems": [
    "C80_int",
    "C80_int_texts",
    "C80_sphere_reads",
    "C80_mesh_reads",
    "C80_dashes",
    "C80_swallowed_refuted",
    "C80_leaves",
    "C80_sphere_every",
    "C80_mesh_every",
    "C80_refused",
    "C80_misfit",
    "C80_valueless",
    "C80_left",
    "C80_sphere_main",
    "C80_sphere_figure",
    "C80_mesh_main",
    "C80_mesh_figure"
   ],
   "note": "The parser model follows CPython's argparse.py of 3.11 for the kinds of option the two commands declare. The readings theorem is stated on spellings (SpecCommands), not on the parser; C80_*_every is about all word lists. What becomes of a negative band limit is not modelled. C80_refused, C80_misfit and C80_valueless allow any words around the refused ones."
  },
  {
   "property": "C81",
   "status": "proved",
   "theorems": [
    "C81_once",
    "C81_found",
    "C81_retry_refuted",
    "C81_tables",
    "C81_mesh_files",
    "C81_torn_refuted",
    "C81_mesh_published"
   ],
   "note": "C81_retry_refuted and C81_torn_refuted are the refuted parts. Concurrent runs of the mesh decomposition are not modelled (for the Slepian solvers see C13)."
  },
  {
   "property": "C82",
   "status": "proved",
   "theorems": [
    "C82_infinite",
    "C82_regions",
    "C82_unknown",
    "C82_subdivide",
    "C82_upsample",
    "C82_refined_region",
    "C82_laplacian",
    "C82_refined_energy",
    "C82_kernel",
    "C82_singular_refuted",
    "C82_eigen",
    "C82_solvable",
    "C82_mesh"
   ],
   "note": "C82_singular_refuted is the refuted part. igl.upsample and igl.cotmatrix are modelled from the library's documentation and source; reading the .off files is external."
  },
  {
   "property": "C83",
   "status": "proved",
   "theorems": [
    "C83_similar",
    "C83_triangles",
    "C83_numbers",
    "C83_lowest",
    "C83_basis",
    "C83_slepian",
    "C83_lossy",
    "C83_split_refuted"
   ],
   "note": "C83_split_refuted is the refuted part. C83_basis and C83_slepian assume that both solvers return whole eigenspaces (lowest_whole)."
  },
  {
   "property": "C84",
   "status": "proved",
   "theorems": [
    "C84_identity",
    "C84_positive",
    "C84_box",
    "C84_box_grows",
    "C84_cap",
    "C84_cap_grows",
    "C84_box_coefficient",
    "C84_cap_coefficient",
    "C84_mask"
   ],
   "note": "Exact eigenvalues: in floating point the smallest ones come out as rounding errors of either sign (C78 bounds these)."
  },
  {
   "property": "C85",
   "status": "proved",
   "theorems": [
    "C85_result",
    "C85_field",
    "C85_extremes",
    "C85_gap",
    "C85_split",
    "C85_linear",
    "C85_multiples",
    "C85_truncation",
    "C85_refusals",
    "C85_idempotent_refuted"
   ],
   "note": "C85_idempotent_refuted is the refuted part; C85_result, C85_extremes, C85_split and C85_linear take the properties of the ssht transforms as hypotheses (transforms)."
  },
  {
   "property": "C86",
   "status": "proved",
   "theorems": [
    "C86_box",
    "C86_cap",
    "C86_two_caps",
    "C86_sphere",
    "C86_band_limited",
    "C86_area",
    "C86_shannon"
   ],
   "note": "Exact arithmetic. The bound is not sharp (C51 has the exact value for the constant 1)."
  },
  {
   "property": "C87",
   "status": "proved",
   "theorems": [
    "C87_generators",
    "C87_axisymmetric",
    "C87_axisymmetric_band",
    "C87_slepian",
    "C87_scales",
    "C87_mesh"
   ],
   "note": "Exact arithmetic; the generators are those of the s2let paper for any function of the stated shape."
  }
 ]
}
