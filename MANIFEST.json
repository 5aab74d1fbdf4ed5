{
 "claims": [
  {
   "property": "C01",
   "status": "proved",
   "theorems": [
    "C01_interp_on_polyline"
   ],
   "note": "Exact arithmetic (R). Any list of query points, either choose_max."
  },
  {
   "property": "C02",
   "status": "proved",
   "theorems": [
    "C02_interp_no_overshoot"
   ],
   "note": "Exact arithmetic (R); holds without any monotonicity of x."
  },
  {
   "property": "C03",
   "status": "proved",
   "theorems": [
    "C03_choose_min_before_step",
    "C03_choose_max_after_step"
   ],
   "note": "Exact arithmetic (R)."
  },
  {
   "property": "C04",
   "status": "proved",
   "theorems": [
    "C04_segment_search"
   ],
   "note": "Exact arithmetic (R)."
  },
  {
   "property": "C05",
   "status": "proved",
   "theorems": [
    "C05_segments_before"
   ],
   "note": "Exact arithmetic (R)."
  },
  {
   "property": "C06",
   "status": "proved",
   "theorems": [
    "C06_between_tiles"
   ],
   "note": "Exact arithmetic (R)."
  },
  {
   "property": "C07",
   "status": "proved",
   "theorems": [
    "C07_integral",
    "C07_empty_interval_refuted",
    "C07_empty_interval_value"
   ],
   "note": "Exact arithmetic. The excluded case xi = xj is documented by C07_empty_interval_refuted / _value."
  },
  {
   "property": "C08",
   "status": "proved",
   "theorems": [
    "C08_additive"
   ],
   "note": "For a<b<c; with empty sub-intervals see C07 (refuted there)."
  },
  {
   "property": "C09",
   "status": "proved",
   "theorems": [
    "C09_average"
   ],
   "note": "For xi < xj."
  },
  {
   "property": "C10",
   "status": "proved",
   "theorems": [
    "C10_product_integral"
   ],
   "note": "Whole function: any number of layers, jumps allowed, xi<xj anywhere in range; exact arithmetic. Breakpoints exactly equal (the code also accepts allclose ones)."
  },
  {
   "property": "C11",
   "status": "proved",
   "theorems": [
    "C11_layers_roundtrip"
   ],
   "note": "Contiguous layers of positive thickness."
  },
  {
   "property": "C12",
   "status": "proved",
   "theorems": [
    "C12_force_strictly_increasing",
    "C12_points_hardly_move",
    "C12_returns_iff_monotone",
    "C12_force_strictly_increasing_refuted",
    "C12_argument_mutated_refuted",
    "C12_argument_after"
   ],
   "note": "Exact arithmetic. C12_force_strictly_increasing_refuted: machine-checked IEEE binary64 counterexample (absorption); C12_argument_mutated_refuted: the caller's array is overwritten."
  },
  {
   "property": "C13",
   "status": "proved",
   "theorems": [
    "C13_force_non_decreasing"
   ],
   "note": "Exact arithmetic (R)."
  },
  {
   "property": "C14",
   "status": "proved",
   "theorems": [
    "C14_classification",
    "C14_classification_refuted"
   ],
   "note": "The excluded case (doubled points) is documented by C14_classification_refuted."
  },
  {
   "property": "C15",
   "status": "proved",
   "theorems": [
    "C15_initially_increasing",
    "C15_initially_increasing_refuted"
   ],
   "note": "The known limit is C15_initially_increasing_refuted, for every such input."
  },
  {
   "property": "C16",
   "status": "proved",
   "theorems": [
    "C16_monotone_parts"
   ],
   "note": "Exact arithmetic (R)."
  },
  {
   "property": "C17",
   "status": "proved",
   "theorems": [
    "C17_strictly_increasing",
    "C17_strictly_decreasing",
    "C17_non_decreasing",
    "C17_non_increasing",
    "C17_has_steps"
   ],
   "note": "All five predicates."
  },
  {
   "property": "C18",
   "status": "proved",
   "theorems": [
    "C18_mesh",
    "C18_mesh_errors"
   ],
   "note": "Exact arithmetic; n natural."
  },
  {
   "property": "C19",
   "status": "proved",
   "theorems": [
    "C19_operands_unchanged",
    "C19_results",
    "C19_shift_overwrites",
    "C19_shift_refuted"
   ],
   "note": "C19_shift_overwrites/_refuted document the known in-place overwrite of p by p+c, p-c, c-p."
  },
  {
   "property": "C20",
   "status": "proved",
   "theorems": [
    "C20_representations_agree",
    "C20_stale_layers_refuted"
   ],
   "note": "C20_stale_layers_refuted shows why histories with p+c are excluded."
  },
  {
   "property": "C21",
   "status": "proved",
   "theorems": [
    "C21_equality",
    "C21_symmetry_refuted"
   ],
   "note": "C21_symmetry_refuted documents the asymmetry."
  },
  {
   "property": "C22",
   "status": "proved",
   "theorems": [
    "C22_superposition",
    "C22_superposition_plain",
    "C22_lengths",
    "C22_single_tuple_refuted"
   ],
   "note": "C22_single_tuple_refuted documents the single-tuple omega_phase error."
  },
  {
   "property": "C23",
   "status": "proved",
   "theorems": [
    "C23_af_linear",
    "C23_symmetric",
    "C23_implementations_agree"
   ],
   "note": "Exact arithmetic. Closed forms generated mechanically from the python source (tools/gen_integrals.py). Fortran extension not modelled."
  },
  {
   "property": "C24",
   "status": "proved",
   "theorems": [
    "C24_D_aDf_linear",
    "C24_D_aDf_strong_form",
    "C24_symmetric",
    "C24_implementations_agree"
   ],
   "note": "Exact arithmetic; also the strong (integrated-by-parts) form."
  },
  {
   "property": "C25",
   "status": "proved",
   "theorems": [
    "C25_ab_linear",
    "C25_implementations_agree"
   ],
   "note": "Exact arithmetic."
  },
  {
   "property": "C26",
   "status": "proved",
   "theorems": [
    "C26_abc_linear",
    "C26_implementations_agree"
   ],
   "note": "Exact arithmetic."
  },
  {
   "property": "C27",
   "status": "proved",
   "theorems": [
    "C27_abf_linear",
    "C27_symmetric",
    "C27_implementations_agree"
   ],
   "note": "Exact arithmetic."
  },
  {
   "property": "C28",
   "status": "proved",
   "theorems": [
    "C28_a_linear_between",
    "C28_avg_between"
   ],
   "note": "Exact arithmetic; z1 < z2 (for z1 = z2 at a layer boundary see C07)."
  },
  {
   "property": "C29",
   "status": "proved",
   "theorems": [
    "C29_Eload_linear",
    "C29_doubled_point_refuted"
   ],
   "note": "Exact arithmetic; dT*eig <> 0. Closed forms generated from the source. Doubled points: C29_doubled_point_refuted. 'fortran' implementation not modelled."
  },
  {
   "property": "C30",
   "status": "proved",
   "theorems": [
    "C30_EDload_linear"
   ],
   "note": "Exact arithmetic; dT*eig <> 0; no doubled points."
  },
  {
   "property": "C31",
   "status": "proved",
   "theorems": [
    "C31_eigenvalues",
    "C31_all_roots",
    "C31_rejects_other_boundaries",
    "C31_basis_modes"
   ],
   "note": "Exact arithmetic; also that no positive root is skipped."
  },
  {
   "property": "C32",
   "status": "proved",
   "theorems": [
    "C32_terzaghi_solves",
    "C32_initial_pressure"
   ],
   "note": "Exact arithmetic (R)."
  },
  {
   "property": "C33",
   "status": "proved",
   "theorems": [
    "C33_doc_is_mean",
    "C33_flowrate_is_gradient"
   ],
   "note": "Exact arithmetic (R)."
  },
  {
   "property": "C34",
   "status": "proved",
   "theorems": [
    "C34_mu_ideal",
    "C34_no_smear",
    "C34_mu_constant"
   ],
   "note": "Exact arithmetic (R); mu_constant for scalar arguments."
  },
  {
   "property": "C35",
   "status": "proved",
   "theorems": [
    "C35_mu_piecewise_constant",
    "C35_outer_radius",
    "C35_one_zone_is_mu_constant",
    "C35_splitting_a_zone",
    "C35_splitting_the_first_zone"
   ],
   "note": "Exact arithmetic (R); empty lists excluded."
  },
  {
   "property": "C36",
   "status": "proved",
   "theorems": [
    "C36_u_ideal",
    "C36_u_constant",
    "C36_u_linear",
    "C36_u_parabolic",
    "C36_u_piecewise_constant",
    "C36_u_piecewise_linear",
    "C36_wall_pressure"
   ],
   "note": "Exact arithmetic (R); parameters that np.isclose merges without being equal are excluded; u_piecewise_linear needs s[0] < s[1]."
  },
  {
   "property": "C37",
   "status": "proved",
   "theorems": [
    "C37_mean_over_depth",
    "C37_shape"
   ],
   "note": "Exact arithmetic (R)."
  },
  {
   "property": "C38",
   "status": "proved",
   "theorems": [
    "C38_area_of_cell",
    "C38_spacing_to_radius",
    "C38_square_exceeds_triangle"
   ],
   "note": "Exact arithmetic (R); pi enclosed to 16 digits in PiBounds.v; empty pattern (IndexError) excluded."
  },
  {
   "property": "C39",
   "status": "proved",
   "theorems": [
    "C39_av_inverse",
    "C39_cccr_stress",
    "C39_cccr_void_ratio",
    "C39_cccr_curve"
   ],
   "note": "Exact arithmetic (R); the source literal 2.3025850929940459 is modelled as that rational, hence the 2e-16."
  },
  {
   "property": "C40",
   "status": "proved",
   "theorems": [
    "C40_av_slope",
    "C40_cccr_slope",
    "C40_cccr_slope_virgin",
    "C40_cccr_corner"
   ],
   "note": "Exact arithmetic (R); literal 0.43429448190325182 modelled as that rational."
  },
  {
   "property": "C41",
   "status": "proved",
   "theorems": [
    "C41_ck_inverse",
    "C41_ck_curve",
    "C41_constant",
    "C41_constant_plot_refuted"
   ],
   "note": "The statement is what the code does; C41_constant_plot_refuted documents the plotting defect."
  },
  {
   "property": "C42",
   "status": "proved",
   "theorems": [
    "C42_law",
    "C42_inverse",
    "C42_odd_increasing_continuous",
    "C42_darcy",
    "C42_reduces_to_darcy",
    "C42_drain_strain_rate"
   ],
   "note": "Exact arithmetic (R); parameters consistent in the sense of hansbo_ok (C81 shows what the constructor yields)."
  },
  {
   "property": "C43",
   "status": "proved",
   "theorems": [
    "C43_derivative_positive",
    "C43_derivative_zero",
    "C43_darcy_positive",
    "C43_negative_refuted",
    "C43_linear_at_zero_refuted",
    "C43_darcy_refuted"
   ],
   "note": "The unrestricted property is false: C43_negative_refuted, C43_linear_at_zero_refuted, C43_darcy_refuted hold for every negative (zero) gradient. dv_di is modelled as written."
  },
  {
   "property": "C44",
   "status": "proved",
   "theorems": [
    "C44_area",
    "C44_true_area",
    "C44_start_and_position",
    "C44_area_vector",
    "C44_shoelace",
    "C44_clockwise_refuted",
    "C44_facing_y_refuted"
   ],
   "note": "C44_area gives the exact result for every vertex list (sign included); C44_clockwise_refuted and C44_facing_y_refuted document where the code does not return the area. Reals instead of floats; a division by zero is an error (numpy: nan)."
  },
  {
   "property": "C45",
   "status": "proved",
   "theorems": [
    "C45_plane",
    "C45_reversed"
   ],
   "note": "Exact arithmetic."
  },
  {
   "property": "C46",
   "status": "proved",
   "theorems": [
    "C46_fixed_point",
    "C46_not_converged",
    "C46_first"
   ],
   "note": "Scalar func only; the array branch (np.allclose style masks) is not modelled."
  },
  {
   "property": "C47",
   "status": "proved",
   "theorems": [
    "C47_search",
    "C47_first_roots",
    "C47_failures",
    "C47_terminates",
    "C47_one_root_terminates",
    "C47_none",
    "C47_start_at_root_refuted",
    "C47_root_zero_refuted",
    "C47_same_root_refuted"
   ],
   "note": "scipy's fsolve is an arbitrary function of the guess; reals instead of floats. The _refuted theorems document the defects listed in the statement."
  },
  {
   "property": "C48",
   "status": "proved",
   "theorems": [
    "C48_geometric",
    "C48_geometric_negative",
    "C48_tail",
    "C48_no_acceleration",
    "C48_three_terms",
    "C48_affine",
    "C48_total",
    "C48_caller_array_kept_refuted"
   ],
   "note": "Real arithmetic, 1-d arrays. C48_caller_array_kept_refuted documents the in-place update."
  },
  {
   "property": "C49",
   "status": "proved",
   "theorems": [
    "C49_accepts_exactly",
    "C49_refusal",
    "C49_remembers",
    "C49_reuse",
    "C49_no_imports",
    "C49_no_dangerous_calls",
    "C49_only_listed_functions",
    "C49_no_dunder_attributes",
    "C49_checked_before_running",
    "C49_unchecked_refuted",
    "C49_attribute_whitelist_refuted",
    "C49_eval_refuted"
   ],
   "note": "accepted texts characterised for all trees; the bypasses are shown by the _refuted theorems"
  },
  {
   "property": "C50",
   "status": "proved",
   "theorems": [
    "C50_number",
    "C50_fresh",
    "C50_history",
    "C50_missing_folder",
    "C50_overwrite_refuted",
    "C50_increment_zero_refuted"
   ],
   "note": "prefix taken as literal text, ascii digits"
  },
  {
   "property": "C51",
   "status": "proved",
   "theorems": [
    "C51_restored",
    "C51_directory_removed",
    "C51_nested"
   ],
   "note": "user code and file system arbitrary; paths without .. and links"
  },
  {
   "property": "C52",
   "status": "proved",
   "theorems": [
    "C52_combinations",
    "C52_is_list",
    "C52_force_list",
    "C52_pairs",
    "C52_same_len",
    "C52_same_len_succeeds",
    "C52_array_refuted",
    "C52_x_limits"
   ],
   "note": "C52_array_refuted documents the numpy-array defect. Values abstracted to None / list / PolyLine / array / other with or without length; np.allclose exact over R."
  },
  {
   "property": "C53",
   "status": "proved",
   "theorems": [
    "C53_copied",
    "C53_initialized"
   ],
   "note": "Objects live in a store, so from and to may be the same object."
  },
  {
   "property": "C54",
   "status": "proved",
   "theorems": [
    "C54_one_file",
    "C54_every_file",
    "C54_uninterrupted",
    "C54_in_its_directory",
    "C54_once_each",
    "C54_usage_errors",
    "C54_directory_files",
    "C54_named_files",
    "C54_level_refuted",
    "C54_twice_refuted"
   ],
   "note": "user code arbitrary; interrupt behaviour documented by _refuted theorems"
  },
  {
   "property": "C55",
   "status": "proved",
   "theorems": [
    "C55_hms",
    "C55_below_60_refuted"
   ],
   "note": "Exact arithmetic. C55_below_60_refuted: 59.999 s is shown as 0:00:60.00."
  },
  {
   "property": "C56",
   "status": "proved",
   "theorems": [
    "C56_shade",
    "C56_tint",
    "C56_extremes",
    "C56_bad_factor"
   ],
   "note": "Exact arithmetic."
  },
  {
   "property": "C57",
   "status": "proved",
   "theorems": [
    "C57_map",
    "C57_permutation",
    "C57_identity",
    "C57_involution",
    "C57_step_refuted"
   ],
   "note": "Any number of dimensions. C57_step_refuted documents steps other than 1 and -1."
  },
  {
   "property": "C58",
   "status": "proved",
   "theorems": [
    "C58_files",
    "C58_caller_refuted",
    "C58_same_name_refuted"
   ],
   "note": "Dictionaries in a heap, so repetition and sharing are covered; pandas (label checks) and str are parameters; file system = tree of files and directories. C58_caller_refuted and C58_same_name_refuted document the defects. The options dictionary is not itself one of the data dictionaries."
  },
  {
   "property": "C59",
   "status": "proved",
   "theorems": [
    "C59_nested",
    "C59_lengths",
    "C59_one_dict_refuted"
   ],
   "note": "Transforms are arbitrary adaptive strategies (parameters). C59_one_dict_refuted documents the single-dict defect. opts shorter than transforms is modelled as an immediate IndexError."
  },
  {
   "property": "C60",
   "status": "proved",
   "theorems": [
    "C60_levels"
   ],
   "note": "Exact arithmetic."
  },
  {
   "property": "C61",
   "status": "proved",
   "theorems": [
    "C61_subdivide"
   ],
   "note": "logx=logy=False, just_before=None; exact arithmetic."
  },
  {
   "property": "C62",
   "status": "proved",
   "theorems": [
    "C62_layer_interp",
    "C62_layer_extrapolation",
    "C62_layer_boundary",
    "C62_layer_integral"
   ],
   "note": "Exact arithmetic."
  },
  {
   "property": "C63",
   "status": "proved",
   "theorems": [
    "C63_layer_boundaries"
   ],
   "note": "Exact arithmetic; the float point count passed to np.linspace (TypeError on current numpy) is modelled as a natural number."
  },
  {
   "property": "C64",
   "status": "proved",
   "theorems": [
    "C64_DD_abDDf_linear",
    "C64_implementations_agree"
   ],
   "note": "Exact arithmetic."
  },
  {
   "property": "C65",
   "status": "proved",
   "theorems": [
    "C65_D_aDb_linear",
    "C65_D_aDb_strong_form",
    "C65_implementations_agree"
   ],
   "note": "Exact arithmetic."
  },
  {
   "property": "C66",
   "status": "proved",
   "theorems": [
    "C66_sine_modes_orthogonal"
   ],
   "note": "Exact arithmetic."
  },
  {
   "property": "C67",
   "status": "proved",
   "theorems": [
    "C67_Eload_EDload_consistent"
   ],
   "note": "Exact arithmetic; dT*eig <> 0."
  },
  {
   "property": "C68",
   "status": "proved",
   "theorems": [
    "C68_remove_superfluous"
   ],
   "note": "Exact arithmetic (R)."
  },
  {
   "property": "C69",
   "status": "proved",
   "theorems": [
    "C69_make_x_common"
   ],
   "note": "Exact arithmetic (R); tolerance side conditions in the statement."
  },
  {
   "property": "C70",
   "status": "proved",
   "theorems": [
    "C70_sum_of_lines",
    "C70_sum_object"
   ],
   "note": "Exact arithmetic (R)."
  },
  {
   "property": "C71",
   "status": "proved",
   "theorems": [
    "C71_product_of_lines"
   ],
   "note": "Exact arithmetic (R)."
  },
  {
   "property": "C72",
   "status": "proved",
   "theorems": [
    "C72_mu_linear",
    "C72_k_linear"
   ],
   "note": "Exact arithmetic (R)."
  },
  {
   "property": "C73",
   "status": "proved",
   "theorems": [
    "C73_mu_parabolic",
    "C73_k_parabolic",
    "C73_nan_refuted"
   ],
   "note": "The unrestricted property is false of the code (C73_nan_refuted); the statement gives the exact range in which it holds."
  },
  {
   "property": "C74",
   "status": "proved",
   "theorems": [
    "C74_mu_overlapping_linear",
    "C74_k_overlapping_linear",
    "C74_touching_refuted"
   ],
   "note": "The unrestricted property fails at s = n (C74_touching_refuted)."
  },
  {
   "property": "C75",
   "status": "proved",
   "theorems": [
    "C75_mu_piecewise_linear",
    "C75_validation",
    "C75_single_zone"
   ],
   "note": "Exact arithmetic (R); nodes that np.isclose merges without being equal are excluded."
  },
  {
   "property": "C76",
   "status": "proved",
   "theorems": [
    "C76_mu_constant_monotone",
    "C76_mu_linear_monotone",
    "C76_mu_piecewise_constant_monotone",
    "C76_outer_radius_u",
    "C76_drain_eta"
   ],
   "note": "Exact arithmetic (R)."
  },
  {
   "property": "C77",
   "status": "proved",
   "theorems": [
    "C77_degree_of_consolidation",
    "C77_truncation_error"
   ],
   "note": "Exact arithmetic (R); proves the sum of 1/(2k+1)^2 is pi^2/8."
  },
  {
   "property": "C78",
   "status": "proved",
   "theorems": [
    "C78_pwise_normally_consolidated",
    "C78_pwise_preconsolidated",
    "C78_pwise_on_curve"
   ],
   "note": "Exact arithmetic (R)."
  },
  {
   "property": "C79",
   "status": "proved",
   "theorems": [
    "C79_pwise_slope",
    "C79_pwise_ends_refuted"
   ],
   "note": "C79_pwise_ends_refuted documents the end-point defects."
  },
  {
   "property": "C80",
   "status": "proved",
   "theorems": [
    "C80_pwise_permeability",
    "C80_pwise_permeability_on_curve"
   ],
   "note": "Exact arithmetic (R)."
  },
  {
   "property": "C81",
   "status": "proved",
   "theorems": [
    "C81_any_three_parameters",
    "C81_accepted_is_consistent",
    "C81_iterated_exponent",
    "C81_wrong_parameters",
    "C81_darcy_reduction_refuted",
    "C81_darcy_reduction"
   ],
   "note": "C81_darcy_reduction_refuted documents the k_linear typo (line 421). Convergence of the exponent iteration is not claimed."
  },
  {
   "property": "C82",
   "status": "proved",
   "theorems": [
    "C82_centroid",
    "C82_plane_polygon",
    "C82_level_refuted",
    "C82_facing_y_refuted"
   ],
   "note": "The statement is about the inputs for which polygon_area is right; C82_level_refuted and C82_facing_y_refuted document the defects."
  },
  {
   "property": "C83",
   "status": "proved",
   "theorems": [
    "C83_second_moment"
   ],
   "note": "Exact arithmetic."
  },
  {
   "property": "C84",
   "status": "proved",
   "theorems": [
    "C84_volume",
    "C84_tetrahedron",
    "C84_translation",
    "C84_additive",
    "C84_orientation"
   ],
   "note": "Exact arithmetic."
  },
  {
   "property": "C85",
   "status": "proved",
   "theorems": [
    "C85_closed",
    "C85_faces",
    "C85_raises",
    "C85_parallelepiped"
   ],
   "note": "Exact arithmetic."
  },
  {
   "property": "C86",
   "status": "proved",
   "theorems": [
    "C86_result",
    "C86_fails",
    "C86_accuracy",
    "C86_converges",
    "C86_zero_fixed_point_refuted",
    "C86_vector"
   ],
   "note": "C86_zero_fixed_point_refuted documents the limit of the relative test."
  },
  {
   "property": "C87",
   "status": "proved",
   "theorems": [
    "C87_too_short",
    "C87_shape",
    "C87_epsilon_rule",
    "C87_transform",
    "C87_geometric",
    "C87_extend",
    "C87_idempotent",
    "C87_always_an_estimate_refuted"
   ],
   "note": "randomized=False. C87_always_an_estimate_refuted documents the empty table for two terms."
  },
  {
   "property": "C88",
   "status": "proved",
   "theorems": [
    "C88_orders",
    "C88_polynomial",
    "C88_near_best",
    "C88_inside",
    "C88_positive",
    "C88_linear",
    "C88_reversed",
    "C88_arrays",
    "C88_shared_limit",
    "C88_shapes",
    "C88_sum_intervals"
   ],
   "note": "Table literals taken exactly as decimals (generated by tools/gen_quadrature.py); floating point rounding and array-valued integrands not modelled."
  },
  {
   "property": "C89",
   "status": "proved",
   "theorems": [
    "C89_orders",
    "C89_polynomial",
    "C89_estimate_small",
    "C89_estimate",
    "C89_near_best",
    "C89_inside",
    "C89_arrays",
    "C89_sum_intervals"
   ],
   "note": "As C88; C89_estimate for the orders tabulated in both tables (7, 10, 15, 20)."
  },
  {
   "property": "C90",
   "status": "proved",
   "theorems": [
    "C90_constructed",
    "C90_no_text",
    "C90_bad_text"
   ],
   "note": "Executing the text (make_module_from_text) is a parameter: any resulting module dictionary or any exception."
  },
  {
   "property": "C91",
   "status": "proved",
   "theorems": [
    "C91_tables",
    "C91_guarantees",
    "C91_idempotent",
    "C91_loads"
   ],
   "note": "The tables are generated from the _setup methods by tools/gen_setup.py (SetupGen.v); tables_ok is checked for each class (C91_tables). sample_passes is an instance."
  },
  {
   "property": "C92",
   "status": "proved",
   "theorems": [
    "C92_nothing_lost",
    "C92_figures",
    "C92_single_figure_refuted"
   ],
   "note": "Composition of C50 with the saving methods. The prefix is literal (not a regular expression) and names contain no path separator. C92_single_figure_refuted documents the defect."
  },
  {
   "property": "C93",
   "status": "proved",
   "theorems": [
    "C93_Eload_coslinear"
   ],
   "note": ""
  },
  {
   "property": "C94",
   "status": "proved",
   "theorems": [
    "C94_EDload_coslinear"
   ],
   "note": ""
  },
  {
   "property": "C95",
   "status": "proved",
   "theorems": [
    "C95_Eload_sinlinear"
   ],
   "note": ""
  },
  {
   "property": "C96",
   "status": "proved",
   "theorems": [
    "C96_cos_consistent",
    "C96_cos_zero"
   ],
   "note": ""
  },
  {
   "property": "C97",
   "status": "proved",
   "theorems": [
    "C97_af",
    "C97_D_aDf",
    "C97_abf",
    "C97_DD_abDDf",
    "C97_ab",
    "C97_abc",
    "C97_D_aDb",
    "C97_a_between"
   ],
   "note": ""
  },
  {
   "property": "C98",
   "status": "proved",
   "theorems": [
    "C98_Eload",
    "C98_EDload",
    "C98_after_table_refuted"
   ],
   "note": "C98_after_table_refuted documents the known defect after the last tabulated time."
  },
  {
   "property": "C99",
   "status": "proved",
   "theorems": [
    "C99_pressure",
    "C99_average",
    "C99_integral",
    "C99_short_modulations_refuted"
   ],
   "note": "Inside the load tables; C99_short_modulations_refuted documents the silent truncation by zip."
  },
  {
   "property": "C100",
   "status": "proved",
   "theorems": [
    "C100_consolidation",
    "C100_exact"
   ],
   "note": "numpy.linalg.inv and eig are parameters with the hypotheses inverts / diagonalises (real eigenvalues); exact reals; theta_zero_indexes None. Witness: a concrete problem with surcharge, two top loads, a fixed point and a pump."
  },
  {
   "property": "C101",
   "status": "proved",
   "theorems": [
    "C101_solution",
    "C101_drain",
    "C101_exact",
    "C101_drain_refuted"
   ],
   "note": "The restricted statement (4) is proved by C101_drain; C101_solution gives the exact error of the reported drain pressure in general and C101_drain_refuted a concrete problem (H = 10, bottom gradient) where it is off by 45. inv and eig are parameters."
  },
  {
   "property": "C102",
   "status": "proved",
   "theorems": [
    "C102_solution",
    "C102_exact",
    "C102_column_refuted"
   ],
   "note": "End to end, inv/eig as parameters. C102_exact: no dropped entries gives exact balance. C102_column_refuted documents the defect (kvc varying with a top load): no pressures with the reported values satisfy the loss equation."
  },
  {
   "property": "C103",
   "status": "proved",
   "theorems": [
    "C103_fredlund_xing_curve"
   ],
   "note": "Exact arithmetic; one array element. 0**y is 0 (y>0)."
  },
  {
   "property": "C104",
   "status": "proved",
   "theorems": [
    "C104_pham_fredlund_curve",
    "C104_residual_suction"
   ],
   "note": "Exact arithmetic; one array element."
  },
  {
   "property": "C105",
   "status": "proved",
   "theorems": [
    "C105_fx_relative_permeability",
    "C105_fx_scale_free",
    "C105_pf_relative_permeability"
   ],
   "note": "Exact arithmetic; one element of psi. Limit and range are of the documented integrals (Coquelicot RInt, Derive)."
  },
  {
   "property": "C106",
   "status": "proved",
   "theorems": [
    "C106_discrete_relative_permeability",
    "C106_below_the_curve_refuted"
   ],
   "note": "Exact arithmetic; one suction. The wrap-around below the first point is C106_below_the_curve_refuted."
  },
  {
   "property": "C107",
   "status": "proved",
   "theorems": [
    "C107_air_permeability"
   ],
   "note": "Exact arithmetic; one element."
  },
  {
   "property": "C108",
   "status": "proved",
   "theorems": [
    "C108_unsaturated",
    "C108_exact",
    "C108_four_boundary_loads_refuted",
    "C108_water_settlement_refuted"
   ],
   "note": "End to end with inv/eig as parameters; the statement excludes the four-load case and states the actual setw/seta values. C108_exact: no dropped entries gives exact balances. C108_four_boundary_loads_refuted and C108_water_settlement_refuted document the defects on concrete problems."
  },
  {
   "property": "C109",
   "status": "proved",
   "theorems": [
    "C109_large_strain",
    "C109_pressure_degree",
    "C109_witness"
   ],
   "note": "Series as summed by the code (finite number of terms); quad is a parameter."
  },
  {
   "property": "C110",
   "status": "proved",
   "theorems": [
    "C110_settlement",
    "C110_position"
   ],
   "note": ""
  },
  {
   "property": "C111",
   "status": "proved",
   "theorems": [
    "C111_initial_state"
   ],
   "note": ""
  },
  {
   "property": "C112",
   "status": "proved",
   "theorems": [
    "C112_soil_velocity",
    "C112_water_velocity_sealed",
    "C112_water_velocity_drained",
    "C112_water_velocity_refuted"
   ],
   "note": "The restricted statement is proved; C112_water_velocity_refuted documents the defect of vw_PTPB."
  },
  {
   "property": "C113",
   "status": "proved",
   "theorems": [
    "C113_total_pore_pressure",
    "C113_stresses_refuted"
   ],
   "note": "Proved for the methods that return; C113_stresses_refuted documents the four methods that raise NameError."
  },
  {
   "property": "C114",
   "status": "proved",
   "theorems": [
    "C114_time_from_degree"
   ],
   "note": "np.logspace over the reals; np.interp as in ConstitutiveModel."
  },
  {
   "property": "C115",
   "status": "proved",
   "theorems": [
    "C115_varying_drain",
    "C115_rejects",
    "C115_gaps_refuted",
    "C115_witness"
   ],
   "note": "The restricted statement is proved; C115_gaps_refuted documents the inputs for which the code returns None or nan."
  },
  {
   "property": "C116",
   "status": "proved",
   "theorems": [
    "C116_drain_and_soil",
    "C116_constant_capacity_refuted",
    "C116_witness"
   ],
   "note": "Proved for A3 > 0; C116_constant_capacity_refuted documents that the default A3 = 0 gives a time-independent result which solves no such system."
  },
  {
   "property": "C117",
   "status": "proved",
   "theorems": [
    "C117_pressures",
    "C117_sizes"
   ],
   "note": "numpy.linalg.solve, det and scipy fsolve are parameters; solve is assumed to return only unique solutions, fsolve positive answers."
  },
  {
   "property": "C118",
   "status": "proved",
   "theorems": [
    "C118_equation",
    "C118_best"
   ],
   "note": "det is assumed to be zero exactly on singular matrices of the size used; the solver answers are assumed to be roots for the second half."
  },
  {
   "property": "C119",
   "status": "proved",
   "theorems": [
    "C119_average_and_settlement"
   ],
   "note": "Load value in the sense of the program (value before an interior step; see the known defect)."
  },
  {
   "property": "C120",
   "status": "proved",
   "theorems": [
    "C120_tables",
    "C120_lengths",
    "C120_conditions",
    "C120_conditions_refuted",
    "C120_impervious_top_refuted",
    "C120_depths",
    "C120_settlement_table_refuted"
   ],
   "note": "The refuted theorems document the defects."
  },
  {
   "property": "C121",
   "status": "proved",
   "theorems": [
    "C121_pressures",
    "C121_witness",
    "C121_integer_depths_refuted"
   ],
   "note": "sound_tang: 0 < rw < re, rw <= rs <= re, H, kh, ks, kw, mv, gamw > 0, kv >= 0. The refuted theorem documents the truncation of integer depths."
  },
  {
   "property": "C122",
   "status": "proved",
   "theorems": [
    "C122_average_and_settlement"
   ],
   "note": "Same hypotheses as C121; the load is the one of load_value (before a step that happens at the time)."
  },
  {
   "property": "C123",
   "status": "proved",
   "theorems": [
    "C123_pressures",
    "C123_same_permeability_refuted",
    "C123_defaults_refuted",
    "C123_witness"
   ],
   "note": "sound_lu: 0 < rc < re, rc <= rs <= re if given, all other properties positive. The refuted theorems document the ZeroDivisionError."
  },
  {
   "property": "C124",
   "status": "proved",
   "theorems": [
    "C124_average_and_settlement"
   ],
   "note": "Same hypotheses as C123."
  },
  {
   "property": "C125",
   "status": "proved",
   "theorems": [
    "C125_midpoint_rule",
    "C125_real",
    "C125_linear",
    "C125_time_scaling",
    "C125_shift",
    "C125_zero_time",
    "C125_vectorized",
    "C125_mpmath",
    "C125_witness"
   ],
   "note": "Exact arithmetic; how close the midpoint rule is to the inverse transform is not claimed."
  },
  {
   "property": "C126",
   "status": "proved",
   "theorems": [
    "C126_waves",
    "C126_no_effect_refuted",
    "C126_time_zero",
    "C126_witness"
   ],
   "note": "numpy's complex power is a parameter. C126_no_effect_refuted documents that kv, mv, gamw and tpor are ignored; the factor two is in C126_waves."
  },
  {
   "property": "C127",
   "status": "proved",
   "theorems": [
    "C127_pressures",
    "C127_exact_zeros",
    "C127_rates"
   ],
   "note": "scipy's jv and yv are parameters; is_bessel lists the recurrences, derivatives and Wronskian used of them (met by closed forms in the witness). fsolve is a parameter with positive answers; exactness of its answers is a hypothesis only where stated."
  },
  {
   "property": "C128",
   "status": "proved",
   "theorems": [
    "C128_settlement",
    "C128_degree",
    "C128_rejects"
   ],
   "note": "Same hypotheses as C127; C128_degree assumes exact zeros (and distinct ones for the lower bound 0)."
  },
  {
   "property": "C129",
   "status": "proved",
   "theorems": [
    "C129_unsaturated",
    "C129_rejects",
    "C129_singular",
    "C129_drainage",
    "C129_holds_somewhere"
   ],
   "note": ""
  },
  {
   "property": "C130",
   "status": "proved",
   "theorems": [
    "C130_final",
    "C130_dies",
    "C130_holds_somewhere"
   ],
   "note": ""
  },
  {
   "property": "C131",
   "status": "proved",
   "theorems": [
    "C131_any_eigenvectors",
    "C131_holds_somewhere"
   ],
   "note": ""
  },
  {
   "property": "C132",
   "status": "proved",
   "theorems": [
    "C132_pressures",
    "C132_equation",
    "C132_best"
   ],
   "note": "Bessel functions are any functions with the derivatives, Wronskian of J and Y; NogamiProofs7 constructs such functions. never_straight excludes terms whose shape is straight in a layer (C135_straight_refuted)."
  },
  {
   "property": "C133",
   "status": "proved",
   "theorems": [
    "C133_average_and_settlement"
   ],
   "note": ""
  },
  {
   "property": "C134",
   "status": "proved",
   "theorems": [
    "C134_equation",
    "C134_no_drain"
   ],
   "note": ""
  },
  {
   "property": "C135",
   "status": "proved",
   "theorems": [
    "C135_tables",
    "C135_lengths",
    "C135_conditions",
    "C135_depths",
    "C135_straight_refuted",
    "C135_settlement_table_refuted"
   ],
   "note": "The _refuted theorems document the two defects."
  },
  {
   "property": "C136",
   "status": "proved",
   "theorems": [
    "C136_count",
    "C136_consistent",
    "C136_any_two",
    "C136_no_creep",
    "C136_reference"
   ],
   "note": ""
  },
  {
   "property": "C137",
   "status": "proved",
   "theorems": [
    "C137_history",
    "C137_determined",
    "C137_reset",
    "C137_creep_refuted",
    "C137_restart_refuted"
   ],
   "note": "Restricted to increments that change the stress; C137_creep_refuted and C137_restart_refuted document the defects."
  },
  {
   "property": "C138",
   "status": "proved",
   "theorems": [
    "C138_inverse",
    "C138_inverse_back",
    "C138_state_kept",
    "C138_monotone"
   ],
   "note": ""
  },
  {
   "property": "C139",
   "status": "proved",
   "theorems": [
    "C139_stress_rate",
    "C139_strain_rate",
    "C139_constant_rate",
    "C139_methods_agree",
    "C139_strain_odeint",
    "C139_put_back",
    "C139_origin_refuted",
    "C139_twice_refuted",
    "C139_varying_refuted"
   ],
   "note": "method='step' on a new object; C139_twice_refuted, C139_origin_refuted, C139_varying_refuted document the defects. just_before and logx are not modelled."
  },
  {
   "property": "C140",
   "status": "proved",
   "theorems": [
    "C140_stress",
    "C140_void"
   ],
   "note": ""
  },
  {
   "property": "C141",
   "status": "proved",
   "theorems": [
    "C141_rate",
    "C141_instant",
    "C141_unloading_refuted"
   ],
   "note": "Positive rates; C141_unloading_refuted documents the sign defect for falling stress."
  },
  {
   "property": "C142",
   "status": "proved",
   "theorems": [
    "C142_real",
    "C142_imag",
    "C142_complex",
    "C142_imag_refuted",
    "C142_parity_refuted",
    "C142_whole",
    "C142_sign_refuted"
   ],
   "note": "Restricted as stated; C142_imag_refuted, C142_sign_refuted and C142_parity_refuted document the defects."
  },
  {
   "property": "C143",
   "status": "proved",
   "theorems": [
    "C143_points",
    "C143_value",
    "C143_orders",
    "C143_pointwise",
    "C143_extrapolated",
    "C143_iterated",
    "C143_product",
    "C143_together_refuted",
    "C143_negative_index",
    "C143_extrapolated_from_end"
   ],
   "note": "C143_together_refuted documents the interaction of rows under extrapolation."
  },
  {
   "property": "C144",
   "status": "proved",
   "theorems": [
    "C144_vectorised",
    "C144_breaks",
    "C144_value",
    "C144_extrapolated",
    "C144_start_refuted",
    "C144_cut_refuted",
    "C144_negative_index"
   ],
   "note": "C144_cut_refuted and C144_start_refuted document the limits beyond the last zero."
  },
  {
   "property": "C145",
   "status": "proved",
   "theorems": [
    "C145_galerkin",
    "C145_times",
    "C145_times_witness",
    "C145_given_times"
   ],
   "note": "np.linalg.solve is a parameter that returns as many numbers as equations; odeint's trajectory is a hypothesis"
  },
  {
   "property": "C146",
   "status": "proved",
   "theorems": [
    "C146_exact",
    "C146_error",
    "C146_points",
    "C146_independent"
   ],
   "note": ""
  },
  {
   "property": "C147",
   "status": "proved",
   "theorems": [
    "C147_constructor_refuted",
    "C147_no_quadrature_refuted",
    "C147_clamped_modes",
    "C147_free_modes",
    "C147_free_first_refuted",
    "C147_rows",
    "C147_one_row",
    "C147_physical_x",
    "C147_normalise_refuted",
    "C147_unknown_ends"
   ],
   "note": "the four _refuted theorems document known defects named in the property"
  },
  {
   "property": "C148",
   "status": "proved",
   "theorems": [
    "C148_point_load",
    "C148_shape",
    "C148_decays",
    "C148_superposition"
   ],
   "note": ""
  },
  {
   "property": "C149",
   "status": "proved",
   "theorems": [
    "C149_physical",
    "C149_dies_out",
    "C149_static",
    "C149_factor",
    "C149_static_factor",
    "C149_witness",
    "C149_witness_static"
   ],
   "note": "np.roots is a parameter that returns the four roots of the polynomial at hand, np.linalg.solve one whose results solve the system"
  },
  {
   "property": "C150",
   "status": "proved",
   "theorems": [
    "C150_transition",
    "C150_inverse",
    "C150_through",
    "C150_position_refuted"
   ],
   "note": "the _refuted theorems document known defects named in the property"
  },
  {
   "property": "C151",
   "status": "proved",
   "theorems": [
    "C151_errors",
    "C151_swap",
    "C151_outside",
    "C151_circles",
    "C151_monotone",
    "C151_between",
    "C151_middle",
    "C151_jump_refuted",
    "C151_continuous"
   ],
   "note": "the _refuted theorems document known defects named in the property"
  },
  {
   "property": "C152",
   "status": "proved",
   "theorems": [
    "C152_positions",
    "C152_passing",
    "C152_passing_beam",
    "C152_convert",
    "C152_convert_errors",
    "C152_defaults",
    "C152_constructor",
    "C152_constructor_errors",
    "C152_loads",
    "C152_start_time_refuted",
    "C152_backwards_refuted",
    "C152_assigned_length_refuted",
    "C152_witness"
   ],
   "note": "the _refuted theorems document known defects named in the property"
  },
  {
   "property": "C153",
   "status": "proved",
   "theorems": [
    "C153_galerkin",
    "C153_k3bar_refuted",
    "C153_witness",
    "C153_start_time_refuted",
    "C153_phase_refuted"
   ],
   "note": "the _refuted theorems document known defects named in the property"
  },
  {
   "property": "C154",
   "status": "proved",
   "theorems": [
    "C154_physical",
    "C154_normalised",
    "C154_units",
    "C154_errors",
    "C154_zero_refuted",
    "C154_dropped_refuted",
    "C154_witness"
   ],
   "note": "the _refuted theorems document known defects named in the property"
  },
  {
   "property": "C155",
   "status": "proved",
   "theorems": [
    "C155_output",
    "C155_wofx",
    "C155_stale_refuted",
    "C155_witness"
   ],
   "note": "the _refuted theorems document known defects named in the property"
  },
  {
   "property": "C156",
   "status": "proved",
   "theorems": [
    "C156_steps",
    "C156_accepted",
    "C156_missing",
    "C156_unnamed_refuted",
    "C156_combine"
   ],
   "note": "the _refuted theorems document known defects named in the property"
  },
  {
   "property": "C157",
   "status": "proved",
   "theorems": [
    "C157_derivative",
    "C157_derivative_refuted"
   ],
   "note": "the _refuted theorems document known defects named in the property"
  },
  {
   "property": "C158",
   "status": "proved",
   "theorems": [
    "C158_group",
    "C158_indexes",
    "C158_spacing",
    "C158_no_hysteresis",
    "C158_hysteresis"
   ],
   "note": ""
  },
  {
   "property": "C159",
   "status": "proved",
   "theorems": [
    "C159_saturation",
    "C159_history",
    "C159_fill",
    "C159_thresholds",
    "C159_reference"
   ],
   "note": ""
  },
  {
   "property": "C160",
   "status": "proved",
   "theorems": [
    "C160_saturated"
   ],
   "note": ""
  },
  {
   "property": "C161",
   "status": "proved",
   "theorems": [
    "C161_drying",
    "C161_wetting",
    "C161_unloading"
   ],
   "note": ""
  },
  {
   "property": "C162",
   "status": "proved",
   "theorems": [
    "C162_rerun"
   ],
   "note": ""
  },
  {
   "property": "C163",
   "status": "proved",
   "theorems": [
    "C163_points",
    "C163_geometric",
    "C163_runs",
    "C163_bad_values",
    "C163_defaults_refuted",
    "C163_example"
   ],
   "note": "the _refuted theorems document known defects named in the property"
  },
  {
   "property": "C164",
   "status": "proved",
   "theorems": [
    "C164_saturation",
    "C164_drying",
    "C164_wetting",
    "C164_agree",
    "C164_bounds_refuted",
    "C164_drying_refuted"
   ],
   "note": "the _refuted theorems document known defects named in the property"
  },
  {
   "property": "C165",
   "status": "proved",
   "theorems": [
    "C165_grid",
    "C165_grid_points",
    "C165_hydrostatic",
    "C165_calc",
    "C165_lawful",
    "C165_physical",
    "C165_nonconvergence_refuted",
    "C165_refine_refuted",
    "C165_default_water_table",
    "C165_point_path"
   ],
   "note": "the _refuted theorems document known defects named in the property"
  },
  {
   "property": "C166",
   "status": "proved",
   "theorems": [
    "C166_paths",
    "C166_indexes",
    "C166_water_table_refuted",
    "C166_profile_kept",
    "C166_profile_refuted"
   ],
   "note": "the _refuted theorems document known defects named in the property"
  },
  {
   "property": "C167",
   "status": "proved",
   "theorems": [
    "C167_water",
    "C167_air"
   ],
   "note": ""
  },
  {
   "property": "C168",
   "status": "proved",
   "theorems": [
    "C168_Eload_linear",
    "C168_Eload_sinlinear",
    "C168_example"
   ],
   "note": ""
  },
  {
   "property": "C169",
   "status": "proved",
   "theorems": [
    "C169_motion",
    "C169_example",
    "C169_stored"
   ],
   "note": ""
  },
  {
   "property": "C170",
   "status": "proved",
   "theorems": [
    "C170_field",
    "C170_agrees",
    "C170_runs",
    "C170_example",
    "C170_after_table_refuted"
   ],
   "note": "the _refuted theorems document known defects named in the property"
  },
  {
   "property": "C171",
   "status": "proved",
   "theorems": [
    "C171_spacing",
    "C171_only",
    "C171_first_guess",
    "C171_refused",
    "C171_unreachable_refuted",
    "C171_largest",
    "C171_functions",
    "C171_example"
   ],
   "note": "the _refuted theorems document known defects named in the property"
  },
  {
   "property": "C172",
   "status": "proved",
   "theorems": [
    "C172_read",
    "C172_scaled",
    "C172_accuracy",
    "C172_gives",
    "C172_refused",
    "C172_late_start_refuted",
    "C172_example"
   ],
   "note": "the _refuted theorems document known defects named in the property"
  },
  {
   "property": "C173",
   "status": "proved",
   "theorems": [
    "C173_answer",
    "C173_in_time",
    "C173_clock",
    "C173_ends",
    "C173_big_answer_refuted",
    "C173_unpicklable_refuted",
    "C173_killed_child_refuted",
    "C173_example"
   ],
   "note": "the _refuted theorems document known defects named in the property"
  },
  {
   "property": "C174",
   "status": "proved",
   "theorems": [
    "C174_calls",
    "C174_too_many",
    "C174_split",
    "C174_apply",
    "C174_example"
   ],
   "note": ""
  },
  {
   "property": "C175",
   "status": "proved",
   "theorems": [
    "C175_styles",
    "C175_all",
    "C175_empty_list_refuted",
    "C175_example"
   ],
   "note": "the _refuted theorems document known defects named in the property"
  },
  {
   "property": "C176",
   "status": "proved",
   "theorems": [
    "C176_g",
    "C176_rejects",
    "C176_slope_limit"
   ],
   "note": ""
  },
  {
   "property": "C177",
   "status": "proved",
   "theorems": [
    "C177_beta_u",
    "C177_outer",
    "C177_returns",
    "C177_ideal",
    "C177_constant",
    "C177_rejects",
    "C177_u_outside",
    "C177_example"
   ],
   "note": ""
  },
  {
   "property": "C178",
   "status": "proved",
   "theorems": [
    "C178_flow",
    "C178_rejects",
    "C178_example"
   ],
   "note": ""
  }
 ]
}