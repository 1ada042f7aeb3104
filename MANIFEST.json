{
 "claims": [
  {
   "property": "C01",
   "status": "proved",
   "theorems": [
    "C01_sgn_is_signature",
    "C01_sgn_multiplicative",
    "C01_sgn_transposition"
   ],
   "note": ""
  },
  {
   "property": "C02",
   "status": "proved",
   "theorems": [
    "C02_dt_is_det",
    "C02_dt_mul",
    "C02_dt_tr_eye_rows",
    "C02_dt_index_error"
   ],
   "note": ""
  },
  {
   "property": "C03",
   "status": "proved",
   "theorems": [
    "C03_pt_is_permanent",
    "C03_pt_invariances",
    "C03_pt_counts",
    "C03_pt_index_error"
   ],
   "note": ""
  },
  {
   "property": "C04",
   "status": "proved",
   "theorems": [
    "C04_pf_squared_is_dt",
    "C04_pf_odd"
   ],
   "note": ""
  },
  {
   "property": "C05",
   "status": "proved",
   "theorems": [
    "C05_pf_congruence",
    "C05_pf_scale",
    "C05_pf_permutation"
   ],
   "note": ""
  },
  {
   "property": "C06",
   "status": "proved",
   "theorems": [
    "C06_hf_matchings",
    "C06_pf_matchings",
    "C06_row_expansion"
   ],
   "note": ""
  },
  {
   "property": "C07",
   "status": "proved",
   "theorems": [
    "C07_hf_bipartite",
    "C07_pf_bipartite"
   ],
   "note": ""
  },
  {
   "property": "C08",
   "status": "proved",
   "theorems": [
    "C08_dt_eigen",
    "C08_eigvals_spec"
   ],
   "note": ""
  },
  {
   "property": "C09",
   "status": "proved",
   "theorems": [
    "C09_sound",
    "C09_complete",
    "C09_odd",
    "C09_large"
   ],
   "note": ""
  },
  {
   "property": "C10",
   "status": "proved",
   "theorems": [
    "C10_count"
   ],
   "note": ""
  },
  {
   "property": "C11",
   "status": "proved",
   "theorems": [
    "C11_small",
    "C11_refuted_large",
    "C11_refuted"
   ],
   "note": ""
  },
  {
   "property": "C12",
   "status": "proved",
   "theorems": [
    "C12_faces",
    "C12_default",
    "C12_no_edges"
   ],
   "note": ""
  },
  {
   "property": "C13",
   "status": "proved",
   "theorems": [
    "C13_one",
    "C13_none",
    "C13_several",
    "C13_index_error"
   ],
   "note": ""
  },
  {
   "property": "C14",
   "status": "proved",
   "theorems": [
    "C14_pfo"
   ],
   "note": ""
  },
  {
   "property": "C15",
   "status": "proved",
   "theorems": [
    "C15_pfaffian",
    "C15_det",
    "C15_count",
    "C15_unweighted"
   ],
   "note": ""
  },
  {
   "property": "C16",
   "status": "proved",
   "theorems": [
    "C16_refuted_unsorted_edge",
    "C16_refuted_value",
    "C16_refuted_labels",
    "C16_relabel"
   ],
   "note": ""
  },
  {
   "property": "C17",
   "status": "proved",
   "theorems": [
    "C17_planar",
    "C17_refuted_disconnected",
    "C17_refuted_no_edges",
    "C17_refuted_empty"
   ],
   "note": ""
  },
  {
   "property": "C18",
   "status": "proved",
   "theorems": [
    "C18_dual",
    "C18_refuted"
   ],
   "note": ""
  },
  {
   "property": "C19",
   "status": "proved",
   "theorems": [
    "C19_depth",
    "C19_not_tree",
    "C19_empty_refuted"
   ],
   "note": ""
  },
  {
   "property": "C20",
   "status": "proved",
   "theorems": [
    "C20_direct_sum",
    "C20_only_square",
    "C20_rectangular_refuted",
    "C20_multiplicative"
   ],
   "note": ""
  },
  {
   "property": "C21",
   "status": "proved",
   "theorems": [
    "C21_diagblocksum",
    "C21_blockTr",
    "C21_kron",
    "C21_linear_trace",
    "C21_blockTr_trace",
    "C21_errors",
    "C21_blockTr_refuted"
   ],
   "note": ""
  },
  {
   "property": "C22",
   "status": "proved",
   "theorems": [
    "C22_states"
   ],
   "note": ""
  },
  {
   "property": "C23",
   "status": "proved",
   "theorems": [
    "C23_nearest",
    "C23_ties",
    "C23_list",
    "C23_array",
    "C23_scalar",
    "C23_power_threshold",
    "C23_idempotent",
    "C23_int_refuted",
    "C23_float_threshold_refuted"
   ],
   "note": ""
  },
  {
   "property": "C24",
   "status": "proved",
   "theorems": [
    "C24_bitstring",
    "C24_surjective"
   ],
   "note": ""
  },
  {
   "property": "C25",
   "status": "proved",
   "theorems": [
    "C25_matrix",
    "C25_rectangular",
    "C25_vector",
    "C25_wavefunction",
    "C25_probability",
    "C25_unnormalised",
    "C25_columns",
    "C25_sound",
    "C25_density",
    "C25_idempotent",
    "C25_idempotent_refuted"
   ],
   "note": ""
  },
  {
   "property": "C26",
   "status": "proved",
   "theorems": [
    "C26_wavefunction",
    "C26_density",
    "C26_probability",
    "C26_normalised",
    "C26_near_delta_refuted",
    "C26_delta"
   ],
   "note": ""
  },
  {
   "property": "C27",
   "status": "proved",
   "theorems": [
    "C27_value",
    "C27_events",
    "C27_metric",
    "C27_lengths",
    "C27_broadcast_refuted"
   ],
   "note": ""
  },
  {
   "property": "C28",
   "status": "proved",
   "theorems": [
    "C28_finite",
    "C28_infinite"
   ],
   "note": ""
  },
  {
   "property": "C29",
   "status": "proved",
   "theorems": [
    "C29_js",
    "C29_maximal"
   ],
   "note": ""
  },
  {
   "property": "C30",
   "status": "proved",
   "theorems": [
    "C30_bc"
   ],
   "note": ""
  },
  {
   "property": "C31",
   "status": "proved",
   "theorems": [
    "C31_value",
    "C31_inf",
    "C31_bounds",
    "C31_monotone",
    "C31_flat",
    "C31_uniform",
    "C31_point_mass"
   ],
   "note": ""
  },
  {
   "property": "C32",
   "status": "proved",
   "theorems": [
    "C32_value",
    "C32_not_square",
    "C32_not_square_refuted",
    "C32_huge_refuted"
   ],
   "note": ""
  },
  {
   "property": "C33",
   "status": "proved",
   "theorems": [
    "C33_distribution",
    "C33_dimension"
   ],
   "note": ""
  },
  {
   "property": "C34",
   "status": "proved",
   "theorems": [
    "C34_pure",
    "C34_inf",
    "C34_stabilizer",
    "C34_mixed_refuted",
    "C34_maximally_mixed"
   ],
   "note": ""
  },
  {
   "property": "C35",
   "status": "proved",
   "theorems": [
    "C35_value",
    "C35_metric",
    "C35_helstrom",
    "C35_unitary",
    "C35_dominates_tv",
    "C35_dimensions",
    "C35_broadcast",
    "C35_broadcast_refuted"
   ],
   "note": ""
  },
  {
   "property": "C36",
   "status": "proved",
   "theorems": [
    "C36_distribution",
    "C36_bounds",
    "C36_value",
    "C36_zero",
    "C36_mixed_refuted",
    "C36_order0",
    "C36_gaussian"
   ],
   "note": ""
  },
  {
   "property": "C37",
   "status": "proved",
   "theorems": [
    "C37_permutation_to_matrix",
    "C37_multiplicative",
    "C37_none",
    "C37_nonpermutation_accepted_refuted"
   ],
   "note": ""
  },
  {
   "property": "C38",
   "status": "proved",
   "theorems": [
    "C38_error",
    "C38_order",
    "C38_basis"
   ],
   "note": ""
  },
  {
   "property": "C39",
   "status": "proved",
   "theorems": [
    "C39_shape",
    "C39_CAR",
    "C39_occupation",
    "C39_alphas"
   ],
   "note": ""
  },
  {
   "property": "C40",
   "status": "proved",
   "theorems": [
    "C40_majoranas",
    "C40_rotation",
    "C40_explicit"
   ],
   "note": ""
  },
  {
   "property": "C41",
   "status": "proved",
   "theorems": [
    "C41_rotation",
    "C41_exact",
    "C41_error_bound",
    "C41_swap",
    "C41_compose",
    "C41_incompatible",
    "C41_index_error"
   ],
   "note": ""
  },
  {
   "property": "C42",
   "status": "proved",
   "theorems": [
    "C42_build_H",
    "C42_build_H_default",
    "C42_build_V",
    "C42_particle_hole",
    "C42_hermitian",
    "C42_V_antisymmetric",
    "C42_kitaev",
    "C42_kitaev_refuted_complex",
    "C42_kitaev_hermitian",
    "C42_random_H"
   ],
   "note": ""
  },
  {
   "property": "C43",
   "status": "proved",
   "theorems": [
    "C43_Omega",
    "C43_reordering",
    "C43_K"
   ],
   "note": ""
  },
  {
   "property": "C44",
   "status": "proved",
   "theorems": [
    "C44_decides",
    "C44_accepts",
    "C44_group",
    "C44_shape_error"
   ],
   "note": ""
  },
  {
   "property": "C45",
   "status": "proved",
   "theorems": [
    "C45_decides",
    "C45_accepts",
    "C45_near",
    "C45_shape"
   ],
   "note": ""
  },
  {
   "property": "C46",
   "status": "proved",
   "theorems": [
    "C46_expm_exists",
    "C46_coefficients",
    "C46_default",
    "C46_full",
    "C46_wrong_size",
    "C46_small",
    "C46_small_refuted"
   ],
   "note": ""
  },
  {
   "property": "C47",
   "status": "proved",
   "theorems": [
    "C47_lift",
    "C47_direct",
    "C47_every_list",
    "C47_linear",
    "C47_cutoff_id",
    "C47_hermitian",
    "C47_commutator",
    "C47_lie",
    "C47_jw",
    "C47_ph_of_build_H"
   ],
   "note": ""
  },
  {
   "property": "C48",
   "status": "proved",
   "theorems": [
    "C48_cov",
    "C48_antisymmetric",
    "C48_default_ops",
    "C48_default_refuted"
   ],
   "note": ""
  },
  {
   "property": "C49",
   "status": "proved",
   "theorems": [
    "C49_gamma",
    "C49_sum_rule",
    "C49_correlation_matrix"
   ],
   "note": ""
  },
  {
   "property": "C50",
   "status": "proved",
   "theorems": [
    "C50_scalar",
    "C50_jw",
    "C50_majoranas",
    "C50_empty"
   ],
   "note": ""
  },
  {
   "property": "C51",
   "status": "proved",
   "theorems": [
    "C51_decides",
    "C51_product",
    "C51_shape"
   ],
   "note": ""
  },
  {
   "property": "C52",
   "status": "proved",
   "theorems": [
    "C52_eigh_sp",
    "C52_diagonal",
    "C52_schur_sort_exists",
    "C52_eigvalsh_exists",
    "C52_argsort_exists",
    "C52_refuted_gapless"
   ],
   "note": ""
  },
  {
   "property": "C53",
   "status": "proved",
   "theorems": [
    "C53_eigv_sp",
    "C53_eigv_sp_Y",
    "C53_eigm_sp",
    "C53_eigm_sp_Y",
    "C53_eigm_sp_can",
    "C53_eigm_sp_can_canonical",
    "C53_schur_exists",
    "C53_refuted_singular"
   ],
   "note": ""
  },
  {
   "property": "C54",
   "status": "proved",
   "theorems": [
    "C54_logm_exists",
    "C54_contracts",
    "C54_rotation",
    "C54_free_fermion",
    "C54_implements",
    "C54_branch_cut_refuted"
   ],
   "note": ""
  },
  {
   "property": "C55",
   "status": "proved",
   "theorems": [
    "C55_pure",
    "C55_pure_generator",
    "C55_pure_generator_unseeded",
    "C55_mixed"
   ],
   "note": ""
  },
  {
   "property": "C56",
   "status": "proved",
   "theorems": [
    "C56_mixed",
    "C56_pure",
    "C56_invalid",
    "C56_CHP"
   ],
   "note": ""
  },
  {
   "property": "C57",
   "status": "proved",
   "theorems": [
    "C57_randH",
    "C57_rotPDF"
   ],
   "note": ""
  },
  {
   "property": "C58",
   "status": "proved",
   "theorems": [
    "C58_W0",
    "C58_WN",
    "C58_invalid_N",
    "C58_last_seed_refuted"
   ],
   "note": ""
  },
  {
   "property": "C59",
   "status": "proved",
   "theorems": [
    "C59_vacuum",
    "C59_CN"
   ],
   "note": ""
  },
  {
   "property": "C60",
   "status": "proved",
   "theorems": [
    "C60_basis",
    "C60_small",
    "C60_nonzero_refuted",
    "C60_dim1"
   ],
   "note": ""
  },
  {
   "property": "C61",
   "status": "proved",
   "theorems": [
    "C61_path",
    "C61_dim1",
    "C61_mismatch"
   ],
   "note": ""
  },
  {
   "property": "C62",
   "status": "proved",
   "theorems": [
    "C62_path",
    "C62_ends",
    "C62_all_s_refuted"
   ],
   "note": ""
  },
  {
   "property": "C63",
   "status": "proved",
   "theorems": [
    "C63_planar",
    "C63_planar_seed0",
    "C63_refuted_planar_seed0",
    "C63_rotation",
    "C63_H_generator",
    "C63_FF_state",
    "C63_qubit_state",
    "C63_qubit_pure_state",
    "C63_randH",
    "C63_rotPDF",
    "C63_W0",
    "C63_WN",
    "C63_CN"
   ],
   "note": ""
  },
  {
   "property": "C64",
   "status": "proved",
   "theorems": [
    "C64_restored",
    "C64_outcome",
    "C64_fallback",
    "C64_precision"
   ],
   "note": ""
  },
  {
   "property": "C65",
   "status": "proved",
   "theorems": [
    "C65_W0",
    "C65_WN",
    "C65_CN",
    "C65_state"
   ],
   "note": ""
  },
  {
   "property": "C66",
   "status": "proved",
   "theorems": [
    "C66_geodesic_refuted"
   ],
   "note": ""
  },
  {
   "property": "C67",
   "status": "proved",
   "theorems": [
    "C67_signs",
    "C67_order",
    "C67_positive",
    "C67_refuted_order"
   ],
   "note": ""
  },
  {
   "property": "C68",
   "status": "proved",
   "theorems": [
    "C68_small",
    "C68_first",
    "C68_graph",
    "C68_counted",
    "C68_total",
    "C68_contract"
   ],
   "note": ""
  },
  {
   "property": "C69",
   "status": "proved",
   "theorems": [
    "C69_weight",
    "C69_undirected",
    "C69_directed",
    "C69_refuted_loops",
    "C69_refuted_weight",
    "C69_refuted_lower",
    "C69_shape",
    "C69_row",
    "C69_graph",
    "C69_exact",
    "C69_roundtrip"
   ],
   "note": ""
  },
  {
   "property": "C70",
   "status": "proved",
   "theorems": [
    "C70_fermi",
    "C70_covariance",
    "C70_coefficients",
    "C70_occupations",
    "C70_values"
   ],
   "note": ""
  },
  {
   "property": "C71",
   "status": "proved",
   "theorems": [
    "C71_gaussian",
    "C71_mixed",
    "C71_randH",
    "C71_W0",
    "C71_WN",
    "C71_CN",
    "C71_state"
   ],
   "note": ""
  },
  {
   "property": "C72",
   "status": "proved",
   "theorems": [
    "C72_modes",
    "C72_rotate",
    "C72_spectrum",
    "C72_ground",
    "C72_partition"
   ],
   "note": ""
  },
  {
   "property": "C73",
   "status": "proved",
   "theorems": [
    "C73_skew_part",
    "C73_count",
    "C73_refuted_raw",
    "C73_refuted_value"
   ],
   "note": ""
  },
  {
   "property": "C74",
   "status": "proved",
   "theorems": [
    "C74_exponential",
    "C74_refuted_interaction",
    "C74_rotation",
    "C74_circuit",
    "C74_state",
    "C74_gaussian",
    "C74_other_sizes"
   ],
   "note": ""
  },
  {
   "property": "C75",
   "status": "proved",
   "theorems": [
    "C75_gamma",
    "C75_refuted_ground",
    "C75_refuted_two_site",
    "C75_refuted_canonical",
    "C75_refuted_two_site_real"
   ],
   "note": ""
  },
  {
   "property": "C76",
   "status": "proved",
   "theorems": [
    "C76_spectrum",
    "C76_eigh",
    "C76_quadratic",
    "C76_operator",
    "C76_ends",
    "C76_degenerate",
    "C76_trivial",
    "C76_refuted_normalisation"
   ],
   "note": ""
  },
  {
   "property": "C77",
   "status": "proved",
   "theorems": [
    "C77_series",
    "C77_majorised",
    "C77_pure",
    "C77_errors"
   ],
   "note": ""
  },
  {
   "property": "C78",
   "status": "proved",
   "theorems": [
    "C78_read",
    "C78_exact",
    "C78_int",
    "C78_shape",
    "C78_complex",
    "C78_refuted_imag",
    "C78_refuted_zero",
    "C78_errors"
   ],
   "note": ""
  },
  {
   "property": "C79",
   "status": "proved",
   "theorems": [
    "C79_arrows",
    "C79_pfo",
    "C79_kasteleyn",
    "C79_errors"
   ],
   "note": ""
  },
  {
   "property": "C80",
   "status": "proved",
   "theorems": [
    "C80_bounds",
    "C80_relative_entropy",
    "C80_stochastic",
    "C80_relabel",
    "C80_pairs",
    "C80_uniform"
   ],
   "note": ""
  },
  {
   "property": "C81",
   "status": "proved",
   "theorems": [
    "C81_operation",
    "C81_diagblocksum",
    "C81_blockTr",
    "C81_mixture",
    "C81_product",
    "C81_wavefunctions"
   ],
   "note": ""
  },
  {
   "property": "C82",
   "status": "proved",
   "theorems": [
    "C82_spectrum",
    "C82_determined",
    "C82_schur_form",
    "C82_rotation",
    "C82_modes",
    "C82_monotone",
    "C82_thermal"
   ],
   "note": ""
  },
  {
   "property": "C83",
   "status": "proved",
   "theorems": [
    "C83_clifford",
    "C83_product",
    "C83_order",
    "C83_bound"
   ],
   "note": ""
  },
  {
   "property": "C84",
   "status": "proved",
   "theorems": [
    "C84_zero",
    "C84_wick",
    "C84_positive",
    "C84_unique"
   ],
   "note": ""
  },
  {
   "property": "C85",
   "status": "proved",
   "theorems": [
    "C85_last",
    "C85_first",
    "C85_product",
    "C85_additive",
    "C85_odd_refuted"
   ],
   "note": ""
  },
  {
   "property": "C86",
   "status": "proved",
   "theorems": [
    "C86_hf_symmetric_part",
    "C86_pf_skew_part",
    "C86_direct_sum",
    "C86_dt_row_expansion",
    "C86_pt_row_expansion",
    "C86_hf_row_expansion",
    "C86_hf_invariances",
    "C86_hf_complete",
    "C86_disjoint_union",
    "C86_matchings_union",
    "C86_matchings_complete"
   ],
   "note": ""
  },
  {
   "property": "C87",
   "status": "proved",
   "theorems": [
    "C87_group",
    "C87_FAF",
    "C87_CHP",
    "C87_CHP_errors"
   ],
   "note": ""
  },
  {
   "property": "C88",
   "status": "proved",
   "theorems": [
    "C88_schmidt",
    "C88_FAF",
    "C88_code"
   ],
   "note": ""
  },
  {
   "property": "C89",
   "status": "proved",
   "theorems": [
    "C89_ground",
    "C89_parent"
   ],
   "note": ""
  },
  {
   "property": "C90",
   "status": "proved",
   "theorems": [
    "C90_picture",
    "C90_texts",
    "C90_labels",
    "C90_matching",
    "C90_refuted_order"
   ],
   "note": ""
  },
  {
   "property": "C91",
   "status": "proved",
   "theorems": [
    "C91_variational",
    "C91_ground",
    "C91_limit",
    "C91_FAF",
    "C91_quadratic"
   ],
   "note": ""
  },
  {
   "property": "C92",
   "status": "proved",
   "theorems": [
    "C92_covariance",
    "C92_faf",
    "C92_witness",
    "C92_mixture"
   ],
   "note": ""
  },
  {
   "property": "C93",
   "status": "proved",
   "theorems": [
    "C93_values",
    "C93_pauli_names",
    "C93_pfo",
    "C93_symp",
    "C93_algebra_quiet",
    "C93_algebra_verbose",
    "C93_algebra_refuted_label",
    "C93_flags",
    "C93_stabilizer",
    "C93_rotation",
    "C93_build_op",
    "C93_face",
    "C93_texts",
    "C93_symp_log"
   ],
   "note": ""
  },
  {
   "property": "C94",
   "status": "proved",
   "theorems": [
    "C94_dt_pt",
    "C94_pf_hf",
    "C94_odd",
    "C94_exact",
    "C94_bounded",
    "C94_ones_refuted"
   ],
   "note": ""
  },
  {
   "property": "C95",
   "status": "proved",
   "theorems": [
    "C95_rotation",
    "C95_rotation_value",
    "C95_build_op",
    "C95_complex_first",
    "C95_real_refuted",
    "C95_order_refuted",
    "C95_jordan_wigner"
   ],
   "note": ""
  },
  {
   "property": "C96",
   "status": "proved",
   "theorems": [
    "C96_pt_dt",
    "C96_hf_pf",
    "C96_factor",
    "C96_integers",
    "C96_matchings",
    "C96_float64",
    "C96_zero_one",
    "C96_refuted_exact"
   ],
   "note": ""
  },
  {
   "property": "C97",
   "status": "proved",
   "theorems": [
    "C97_rotation",
    "C97_build_op",
    "C97_loop_product",
    "C97_complex128",
    "C97_float64",
    "C97_relative_refuted"
   ],
   "note": ""
  },
  {
   "property": "C98",
   "status": "proved",
   "theorems": [
    "C98_weighted",
    "C98_exact",
    "C98_none",
    "C98_none_refuted",
    "C98_eigenvalues",
    "C98_relative",
    "C98_failures"
   ],
   "note": ""
  },
  {
   "property": "C99",
   "status": "proved",
   "theorems": [
    "C99_cov",
    "C99_corr",
    "C99_loop_trace",
    "C99_jordan_wigner",
    "C99_float64"
   ],
   "note": ""
  },
  {
   "property": "C100",
   "status": "proved",
   "theorems": [
    "C100_tvd",
    "C100_tvd_zero",
    "C100_linear",
    "C100_float64_any",
    "C100_float64",
    "C100_float64_tvd",
    "C100_wavefunction",
    "C100_wavefunction_tvd"
   ],
   "note": ""
  },
  {
   "property": "C101",
   "status": "proved",
   "theorems": [
    "C101_wavefunction",
    "C101_pdf",
    "C101_density",
    "C101_probability",
    "C101_rejected",
    "C101_columns",
    "C101_complex128"
   ],
   "note": ""
  },
  {
   "property": "C102",
   "status": "proved",
   "theorems": [
    "C102_value",
    "C102_zero",
    "C102_complex128"
   ],
   "note": ""
  }
 ]
}