{
 "claims": [
  {
   "property": "C01",
   "status": "proved",
   "theorems": [
    "C01_polar_round_trip",
    "C01_spherical_round_trip",
    "C01_other_dimensions_throw"
   ],
   "note": ""
  },
  {
   "property": "C02",
   "status": "proved",
   "theorems": [
    "C02_basis_combination",
    "C02_basis_orthonormal",
    "C02_basis_isometry",
    "C02_radial"
   ],
   "note": ""
  },
  {
   "property": "C03",
   "status": "proved",
   "theorems": [
    "C03_direct_potential",
    "C03_additive",
    "C03_order_independent",
    "C03_homogeneous_in_charges",
    "C03_linear_in_charges"
   ],
   "note": ""
  },
  {
   "property": "C04",
   "status": "proved",
   "theorems": [
    "C04_force_is_minus_gradient"
   ],
   "note": ""
  },
  {
   "property": "C05",
   "status": "proved",
   "theorems": [
    "C05_safe_potential",
    "C05_safe_force"
   ],
   "note": ""
  },
  {
   "property": "C06",
   "status": "proved",
   "theorems": [
    "C06_pair",
    "C06_total_force_vanishes",
    "C06_total_force_vanishes_whenever_defined",
    "C06_defined_iff"
   ],
   "note": ""
  },
  {
   "property": "C07",
   "status": "proved",
   "theorems": [
    "C07_energies_schedule_independent"
   ],
   "note": ""
  },
  {
   "property": "C08",
   "status": "proved",
   "theorems": [
    "C08_forces_schedule_independent",
    "C08_forces_whenever_defined"
   ],
   "note": ""
  },
  {
   "property": "C09",
   "status": "proved",
   "theorems": [
    "C09_power_table"
   ],
   "note": ""
  },
  {
   "property": "C10",
   "status": "proved",
   "theorems": [
    "C10_binomial_table",
    "C10_slots_distinct"
   ],
   "note": ""
  },
  {
   "property": "C11",
   "status": "partial",
   "theorems": [
    "C11_m2l_coefficients_partial",
    "C11_m2l_computed",
    "C11_m2l_coefficients_refuted"
   ],
   "note": "False as documented: the code drops the term k = order and uses zero for binomials beyond the table. Exact computed coefficients proved (C11_m2l_computed), equality with the documented ones under a condition, refuted in general."
  },
  {
   "property": "C12",
   "status": "partial",
   "theorems": [
    "C12_merge_history_independent",
    "C12_l2l_history_independent",
    "C12_m2l_history_partial",
    "C12_m2l_history_refuted"
   ],
   "note": "Merging, L2L proved history independent; M2L depends on the history of constructed orders (witness), independent only for order <= 2 or when both histories reach 2p-2."
  },
  {
   "property": "C13",
   "status": "proved",
   "theorems": [
    "C13_alm_lookup",
    "C13_slots_distinct"
   ],
   "note": ""
  },
  {
   "property": "C14",
   "status": "proved",
   "theorems": [
    "C14_sign_functions",
    "C14_sign_lookup"
   ],
   "note": ""
  },
  {
   "property": "C15",
   "status": "partial",
   "theorems": [
    "C15_lookups_in_bounds_partial",
    "C15_order_zero_refuted"
   ],
   "note": "Proved for order >= 1. False for order 0 when no larger expansion was created: the tables are never allocated (refuted with a witness)."
  },
  {
   "property": "C16",
   "status": "proved",
   "theorems": [
    "C16_multipole_error"
   ],
   "note": ""
  },
  {
   "property": "C17",
   "status": "proved",
   "theorems": [
    "C17_multipole_shift_exact",
    "C17_multipole_coefficients"
   ],
   "note": ""
  },
  {
   "property": "C18",
   "status": "proved",
   "theorems": [
    "C18_local_shift_exact",
    "C18_local_potential_is_polynomial"
   ],
   "note": ""
  },
  {
   "property": "C19",
   "status": "proved",
   "theorems": [
    "C19_p2l_error"
   ],
   "note": ""
  },
  {
   "property": "C20",
   "status": "proved",
   "theorems": [
    "C20_m2l_error"
   ],
   "note": ""
  },
  {
   "property": "C21",
   "status": "proved",
   "theorems": [
    "C21_local_force_is_minus_gradient",
    "C21_multipole_force_is_minus_gradient"
   ],
   "note": ""
  },
  {
   "property": "C22",
   "status": "proved",
   "theorems": [
    "C22_add_guarded",
    "C22_add_pointwise"
   ],
   "note": ""
  },
  {
   "property": "C23",
   "status": "proved",
   "theorems": [
    "C23_orthant_geometry",
    "C23_directions",
    "C23_children_displaced"
   ],
   "note": ""
  },
  {
   "property": "C24",
   "status": "proved",
   "theorems": [
    "C24_adjacency_exact",
    "C24_adjacency_relation",
    "C24_adjacency_exact_in_tree"
   ],
   "note": ""
  },
  {
   "property": "C25",
   "status": "partial",
   "theorems": [
    "C25_root_box_contains_partial",
    "C25_root_box_contains_refuted",
    "C25_root_box_contains_iff",
    "C25_root_box_finite"
   ],
   "note": "False in general (C25_root_box_contains_refuted); exact condition in C25_root_box_contains_iff; sufficient condition in C25_root_box_contains_partial."
  },
  {
   "property": "C26",
   "status": "proved",
   "theorems": [
    "C26_termination_in_box",
    "C26_termination",
    "C26_termination_straddling",
    "C26_distinct_sources_diverge",
    "C26_outside_sources_diverge"
   ],
   "note": "Full characterisation for all source lists (C26_termination), the in-box case, and a divergence witness with distinct sources."
  },
  {
   "property": "C27",
   "status": "proved",
   "theorems": [
    "C27_partition",
    "C27_space",
    "C27_children"
   ],
   "note": ""
  },
  {
   "property": "C28",
   "status": "proved",
   "theorems": [
    "C28_traversal"
   ],
   "note": ""
  },
  {
   "property": "C29",
   "status": "proved",
   "theorems": [
    "C29_lists_never_throw",
    "C29_interaction_separated"
   ],
   "note": ""
  },
  {
   "property": "C30",
   "status": "proved",
   "theorems": [
    "C30_coverage",
    "C30_source_coverage",
    "C30_near_list_exact"
   ],
   "note": ""
  },
  {
   "property": "C31",
   "status": "proved",
   "theorems": [
    "C31_containing_leaf"
   ],
   "note": ""
  },
  {
   "property": "C32",
   "status": "proved",
   "theorems": [
    "C32_indices_inside",
    "C32_indices_above",
    "C32_indices_below"
   ],
   "note": ""
  },
  {
   "property": "C33",
   "status": "proved",
   "theorems": [
    "C33_flat_index_bijective",
    "C33_morton_index_bijective",
    "C33_morton_index_throws",
    "C33_flat_index_wraps"
   ],
   "note": ""
  },
  {
   "property": "C34",
   "status": "proved",
   "theorems": [
    "C34_layout"
   ],
   "note": ""
  },
  {
   "property": "C35",
   "status": "proved",
   "theorems": [
    "C35_build_succeeds",
    "C35_leaf_contents",
    "C35_source_found",
    "C35_leaf_found",
    "C35_one_sided_unusable"
   ],
   "note": ""
  },
  {
   "property": "C36",
   "status": "proved",
   "theorems": [
    "C36_near_lists",
    "C36_interaction_lists",
    "C36_interaction_separated"
   ],
   "note": ""
  },
  {
   "property": "C37",
   "status": "proved",
   "theorems": [
    "C37_coverage"
   ],
   "note": ""
  },
  {
   "property": "C38",
   "status": "proved",
   "theorems": [
    "C38_potential_accuracy",
    "C38_usable"
   ],
   "note": ""
  },
  {
   "property": "C39",
   "status": "partial",
   "theorems": [
    "C39_requested_accuracy_refuted",
    "C39_requested_accuracy_partial"
   ],
   "note": "False: five distinct sources, capacity 1, eps = 2^-13, fresh process: the error exceeds eps (refuted with that witness). Proved instead for every input: error at most (1+sqrt 2)/(p+1) * sqrt(eps * total charge)."
  },
  {
   "property": "C40",
   "status": "proved",
   "theorems": [
    "C40_order_selection",
    "C40_order_undefined"
   ],
   "note": ""
  },
  {
   "property": "C41",
   "status": "proved",
   "theorems": [
    "C41_deterministic",
    "C41_schedules_agree"
   ],
   "note": ""
  },
  {
   "property": "C42",
   "status": "proved",
   "theorems": [
    "C42_energies_pointwise",
    "C42_forces_pointwise",
    "C42_energies_accurate"
   ],
   "note": ""
  },
  {
   "property": "C43",
   "status": "proved",
   "theorems": [
    "C43_height_selection",
    "C43_height_undefined"
   ],
   "note": ""
  },
  {
   "property": "C44",
   "status": "partial",
   "theorems": [
    "C44_one_source_per_line_partial",
    "C44_latest_values",
    "C44_incomplete_first_line",
    "C44_blank_line_repeats",
    "C44_one_source_per_line_refuted",
    "C44_written_file_unreadable"
   ],
   "note": "The claim is refuted (a blank line yields a repeated source); proved for lines that begin with d+1 numbers, and the exact behaviour for all files. Tokens that convert in part (1.5abc) are not modelled."
  },
  {
   "property": "C45",
   "status": "partial",
   "theorems": [
    "C45_force_defined_everywhere_refuted",
    "C45_every_leaf_refuted",
    "C45_expansions_refuted"
   ],
   "note": "False: refuted with a witness, and in general (every leaf of every adaptive tree contains such points). C64 and C65 give the exact condition: the force is defined iff x is off the axes of the evaluated expansions."
  },
  {
   "property": "C46",
   "status": "proved",
   "theorems": [
    "C46_unpack_sources",
    "C46_unpack_points",
    "C46_short_charges",
    "C46_flatten",
    "C46_copy",
    "C46_potentials",
    "C46_forces",
    "C46_round_trip",
    "C46_derivative",
    "C46_massless",
    "C46_initial_state",
    "C46_initial_state_mismatch",
    "C46_vector_file"
   ],
   "note": "MTensor errors and the MPI/vtk-free driver code around the loops are not modelled. Undefined behaviour with too few charges, too long or too short velocity/mass files is proved."
  },
  {
   "property": "C47",
   "status": "proved",
   "theorems": [
    "C47_force_accuracy",
    "C47_force_accuracy_unsmoothed"
   ],
   "note": ""
  },
  {
   "property": "C48",
   "status": "proved",
   "theorems": [
    "C48_order_zero_unusable"
   ],
   "note": ""
  },
  {
   "property": "C49",
   "status": "proved",
   "theorems": [
    "C49_balanced_accuracy",
    "C49_usable"
   ],
   "note": ""
  },
  {
   "property": "C50",
   "status": "proved",
   "theorems": [
    "C50_order_limit",
    "C50_order_above_limit",
    "C50_adaptive_order_limit",
    "C50_balanced_order_limit"
   ],
   "note": ""
  },
  {
   "property": "C51",
   "status": "proved",
   "theorems": [
    "C51_multipole3_error"
   ],
   "note": ""
  },
  {
   "property": "C52",
   "status": "proved",
   "theorems": [
    "C52_p2l3_error"
   ],
   "note": ""
  },
  {
   "property": "C53",
   "status": "proved",
   "theorems": [
    "C53_m2l3_error"
   ],
   "note": ""
  },
  {
   "property": "C54",
   "status": "proved",
   "theorems": [
    "C54_multipole3_merge_exact",
    "C54_multipole3_total"
   ],
   "note": ""
  },
  {
   "property": "C55",
   "status": "proved",
   "theorems": [
    "C55_local3_translation_exact"
   ],
   "note": ""
  },
  {
   "property": "C56",
   "status": "proved",
   "theorems": [
    "C56_history_independent"
   ],
   "note": ""
  },
  {
   "property": "C57",
   "status": "proved",
   "theorems": [
    "C57_add3_guarded",
    "C57_add3_pointwise",
    "C57_add3_multipole_potential"
   ],
   "note": ""
  },
  {
   "property": "C58",
   "status": "proved",
   "theorems": [
    "C58_potential3_accuracy",
    "C58_usable"
   ],
   "note": ""
  },
  {
   "property": "C59",
   "status": "proved",
   "theorems": [
    "C59_balanced3_accuracy",
    "C59_usable"
   ],
   "note": ""
  },
  {
   "property": "C60",
   "status": "proved",
   "theorems": [
    "C60_schedules3_agree"
   ],
   "note": ""
  },
  {
   "property": "C61",
   "status": "proved",
   "theorems": [
    "C61_order_zero3_unusable"
   ],
   "note": ""
  },
  {
   "property": "C62",
   "status": "proved",
   "theorems": [
    "C62_local3_force_is_minus_gradient",
    "C62_multipole3_force_is_minus_gradient"
   ],
   "note": ""
  },
  {
   "property": "C63",
   "status": "proved",
   "theorems": [
    "C63_multipole3_force_error",
    "C63_p2l3_force_error",
    "C63_m2l3_force_error"
   ],
   "note": ""
  },
  {
   "property": "C64",
   "status": "proved",
   "theorems": [
    "C64_force3_accuracy",
    "C64_usable",
    "C64_points_exist"
   ],
   "note": ""
  },
  {
   "property": "C65",
   "status": "proved",
   "theorems": [
    "C65_balanced3_force",
    "C65_usable"
   ],
   "note": ""
  },
  {
   "property": "C66",
   "status": "proved",
   "theorems": [
    "C66_potentials2",
    "C66_energies2",
    "C66_forces2",
    "C66_potentials3",
    "C66_energies3",
    "C66_forces3"
   ],
   "note": "Forces in space under the hypothesis that no source lies on the vertical axis of a box (necessary, see C45)."
  },
  {
   "property": "C67",
   "status": "proved",
   "theorems": [
    "C67_integrator_derivative"
   ],
   "note": "Planar case, force_smoothing_eps = 0."
  },
  {
   "property": "C68",
   "status": "proved",
   "theorems": [
    "C68_adaptive_files",
    "C68_balanced_files",
    "C68_point_files",
    "C68_sources_recoverable"
   ],
   "note": "Numbers are written exactly in the model; the C++ streams round them to 6 digits."
  },
  {
   "property": "C69",
   "status": "proved",
   "theorems": [
    "C69_adaptive_destructor",
    "C69_point_destructor",
    "C69_balanced_destructor"
   ],
   "note": "Memory owned by std::vector members is released with its object and not counted separately."
  },
  {
   "property": "C70",
   "status": "proved",
   "theorems": [
    "C70_adaptive_copy_undefined",
    "C70_point_copy_undefined",
    "C70_balanced_copy_undefined",
    "C70_exception_leaks"
   ],
   "note": "The implicit copy constructor copies the pointers: the copy's destructor is the same function on the same blocks."
  },
  {
   "property": "C71",
   "status": "proved",
   "theorems": [
    "C71_vector_referenced_2D",
    "C71_vector_referenced_3D",
    "C71_not_a_snapshot"
   ],
   "note": "Adaptive trees. The balanced trees read the vector only in the constructor and in the batch functions."
  },
  {
   "property": "C72",
   "status": "proved",
   "theorems": [
    "C72_print_2D",
    "C72_print_3D",
    "C72_print_default_undefined"
   ],
   "note": ""
  },
  {
   "property": "C73",
   "status": "proved",
   "theorems": [
    "C73_points_partition",
    "C73_points_space",
    "C73_points_termination",
    "C73_points_termination_straddling",
    "C73_points_undefined"
   ],
   "note": ""
  },
  {
   "property": "C74",
   "status": "proved",
   "theorems": [
    "C74_double_partition",
    "C74_double_tree",
    "C74_double_traversal",
    "C74_double_descent"
   ],
   "note": "Every position, finite or not; holds for every arithmetic."
  },
  {
   "property": "C75",
   "status": "proved",
   "theorems": [
    "C75_double_coverage"
   ],
   "note": "The norm routine (hypot) is arbitrary."
  },
  {
   "property": "C76",
   "status": "partial",
   "theorems": [
    "C76_double_termination_refuted"
   ],
   "note": "Refuted: exact arithmetic terminates on the witness, doubles do not."
  },
  {
   "property": "C77",
   "status": "partial",
   "theorems": [
    "C77_double_no_throw_refuted"
   ],
   "note": "Refuted for every norm routine accurate to one percent."
  },
  {
   "property": "C78",
   "status": "proved",
   "theorems": [
    "C78_double_height",
    "C78_double_decided"
   ],
   "note": "Height at most 2101 for every tree built in binary64, and termination decided at fuel 2101."
  },
  {
   "property": "C79",
   "status": "proved",
   "theorems": [
    "C79_plane_potential_error",
    "C79_space_potential_error",
    "C79_million_sources"
   ],
   "note": "Standard model of floating-point arithmetic: no overflow or underflow. Instance: 53-bit rounding to nearest."
  },
  {
   "property": "C80",
   "status": "proved",
   "theorems": [
    "C80_force_error"
   ],
   "note": "Standard model of floating-point arithmetic: no overflow or underflow."
  },
  {
   "property": "C81",
   "status": "proved",
   "theorems": [
    "C81_plane_rule",
    "C81_plane_rule_balanced",
    "C81_space_rule"
   ],
   "note": "Corollaries of the end-to-end bounds with hypotheses on the input (in space also on the tree)."
  },
  {
   "property": "C82",
   "status": "proved",
   "theorems": [
    "C82_trajectory_written",
    "C82_trajectory_complete",
    "C82_missing_input",
    "C82_lost_output"
   ],
   "note": "The GSL solver is an arbitrary function that keeps the length of the array."
  },
  {
   "property": "C83",
   "status": "proved",
   "theorems": [
    "C83_space_energies_error",
    "C83_plane_energies_error",
    "C83_forces_error"
   ],
   "note": "Standard model of floating-point arithmetic: no overflow or underflow. Instance: 53-bit rounding to nearest."
  },
  {
   "property": "C84",
   "status": "partial",
   "theorems": [
    "C84_schedule_dependent_refuted",
    "C84_runs_close_partial"
   ],
   "note": "Refuted: the order of the atomic additions matters. Proved instead: two runs differ by at most twice the bound of C83 (space)."
  },
  {
   "property": "C85",
   "status": "partial",
   "theorems": [
    "C85_cancellation_refuted",
    "C85_one_sign_partial"
   ],
   "note": "Refuted by cancellation (computed 0, exact 2^-60). Proved for charges of one sign in space."
  },
  {
   "property": "C86",
   "status": "proved",
   "theorems": [
    "C86_rounded_builds",
    "C86_rounded_grid",
    "C86_rounded_near",
    "C86_rounded_interaction",
    "C86_rounded_separated",
    "C86_rounded_coverage",
    "C86_rounded_sources",
    "C86_rounded_lookup"
   ],
   "note": "Standard model of floating-point arithmetic (no overflow or underflow). Range: some source at most -m and some at least m in each coordinate, all coordinates at most M in size, M <= 2^20 m and M 2^h <= 2^32 m."
  },
  {
   "property": "C87",
   "status": "partial",
   "theorems": [
    "C87_double_undefined_refuted",
    "C87_double_exception_refuted"
   ],
   "note": "Refuted over binary64: undefined behaviour for (-2^-60,-2^-60),(1,1); exception for (-1,-1),(2^-40,2^-40). C86 gives a range where it holds."
  },
  {
   "property": "C88",
   "status": "proved",
   "theorems": [
    "C88_rounded_ends",
    "C88_rounded_no_exception",
    "C88_rounded_grid",
    "C88_rounded_near",
    "C88_rounded_separated",
    "C88_rounded_X",
    "C88_rounded_W",
    "C88_rounded_coverage",
    "C88_rounded_sources",
    "C88_rounded_lookup"
   ],
   "note": "Standard model of floating-point arithmetic (no overflow or underflow). Range as in C86 without the bound on dim*height; the refinement ends if any two sources differ in some coordinate by more than 4M/2^h."
  },
  {
   "property": "C89",
   "status": "partial",
   "theorems": [
    "C89_double_lost_source_refuted",
    "C89_double_infinite_refuted"
   ],
   "note": "Refuted over binary64: for (-1,-1,-1),(1.515625,1.515625,1.515625) and a third source at the rounded centre of their root box, the leaf of the third source does not contain it by the rounded test; evaluatePotential at its position takes the branch for points outside the tree and returns -infinity. Exact arithmetic finds the leaf (C31)."
  },
  {
   "property": "C90",
   "status": "proved",
   "theorems": [
    "C90_rounded_construction"
   ],
   "note": "Standard model of floating-point arithmetic (no overflow or underflow). The complex arithmetic is any with relative errors at most w <= 1/2 (accurate_complex); the textbook formulas used under -ffast-math are shown to be one with w = 2^-49 (double_complex). Binomials are the exact values up to w."
  },
  {
   "property": "C91",
   "status": "proved",
   "theorems": [
    "C91_rounded_potential",
    "C91_rounded_lookup_ends",
    "C91_rounded_potential_outside"
   ],
   "note": "As C90. The bound holds wherever the look-up finds a leaf, in particular at sources; where it does not find the leaf of a source the result is not finite (C89). K bounds the lengths of the lists of the boxes, B the logarithms of the distances between boxes."
  },
  {
   "property": "C92",
   "status": "proved",
   "theorems": [
    "C92_adaptive2_no_race",
    "C92_adaptive3_no_race",
    "C92_balanced2_no_race",
    "C92_balanced3_no_race"
   ],
   "note": "Steps of the model are whole expansion operations; a step is taken to write what its effect changes. The growth of the static tables happens before the loops, which is why it is no race."
  },
  {
   "property": "C93",
   "status": "proved",
   "theorems": [
    "C93_rounded_force",
    "C93_rounded_smoothed_force",
    "C93_rounded_force_outside"
   ],
   "note": "As C91. Stated with the near/far split of the sources for the smoothed field, and against the direct sum for the unsmoothed one; sources extend at least m from the origin in every direction."
  },
  {
   "property": "C94",
   "status": "proved",
   "theorems": [
    "C94_balanced_construction",
    "C94_balanced_potential"
   ],
   "note": "Two dimensions, heights up to 16; overflow and underflow not modelled; the height itself is an argument."
  },
  {
   "property": "C95",
   "status": "proved",
   "theorems": [
    "C95_balanced_force",
    "C95_balanced_smoothed_force"
   ],
   "note": "Two dimensions, heights up to 16; overflow and underflow not modelled; smoothing applies to near sources only, as in the code."
  },
  {
   "property": "C96",
   "status": "proved",
   "theorems": [
    "C96_balanced_lists",
    "C96_rounded_balanced_lists",
    "C96_adaptive_lists",
    "C96_adaptive_symmetry",
    "C96_adaptive_conversions",
    "C96_adaptive_pairs",
    "C96_adaptive_boxes"
   ],
   "note": "Counts of list entries and of pairs; the adaptive part is in exact arithmetic. Running times are not modelled."
  },
  {
   "property": "C97",
   "status": "proved",
   "theorems": [
    "C97_height",
    "C97_height_undefined",
    "C97_height_off_by_one",
    "C97_height_same",
    "C97_order",
    "C97_order_undefined",
    "C97_order_off_by_one",
    "C97_order_one_more"
   ],
   "note": "Relative errors of at most 1e-7; the ratios are between 2^-64 and 2^64 (2^-100 and 2^100 for the order), so the fixed-width conversions do not matter."
  },
  {
   "property": "C98",
   "status": "proved",
   "theorems": [
    "C98_balanced_constructor",
    "C98_adaptive_constructor"
   ],
   "note": "Two dimensions; ranges as in C90, C94. The truncation part of the bound does not follow from the accuracy asked for (C39)."
  },
  {
   "property": "C99",
   "status": "proved",
   "theorems": [
    "C99_balanced_same",
    "C99_balanced_lookup_same",
    "C99_adaptive_same",
    "C99_adaptive_lists_same",
    "C99_adaptive_lookup_same"
   ],
   "note": "The norm is any function on doubles that computes a function on reals for coordinates that fit; the root of the sum of squares is one for up to twenty dimensions."
  },
  {
   "property": "C100",
   "status": "proved",
   "theorems": [
    "C100_balanced_builds",
    "C100_balanced_sources",
    "C100_balanced_coverage",
    "C100_balanced_separated",
    "C100_balanced_lookup",
    "C100_adaptive_ends",
    "C100_adaptive_no_exception",
    "C100_adaptive_sources",
    "C100_adaptive_coverage",
    "C100_adaptive_lookup"
   ],
   "note": "Ranges as in C88, C90: outside them the claims fail (C76, C77, C87, C89). Structure only; potentials and expansions are not computed in doubles here."
  },
  {
   "property": "C101",
   "status": "proved",
   "theorems": [
    "C101_square",
    "C101_prints",
    "C101_small_charges",
    "C101_crowded"
   ],
   "note": "Exact real arithmetic; the number of sources is a parameter (10000 in the program)."
  },
  {
   "property": "C102",
   "status": "partial",
   "theorems": [
    "C102_round_trip",
    "C102_exact_partial",
    "C102_exact_refuted",
    "C102_locations",
    "C102_stored_sources_refuted",
    "C102_vector"
   ],
   "note": "The last sentence is false: sixteen digits are written, seventeen are needed; 1 and the next double become equal, after which an adaptive tree with one source in a leaf cannot be built (C102_exact_refuted, C102_stored_sources_refuted). It holds for doubles with at most sixteen decimal digits. Default separators; no bounds on exponents."
  },
  {
   "property": "C103",
   "status": "proved",
   "theorems": [
    "C103_print",
    "C103_stamps",
    "C103_columns",
    "C103_durations"
   ],
   "note": "Durations without the rounding of the final division."
  },
  {
   "property": "C104",
   "status": "proved",
   "theorems": [
    "C104_space_potential",
    "C104_million_sources",
    "C104_plane_potential",
    "C104_force"
   ],
   "note": "Primitive floats of Coq (binary64, round to nearest even). The library functions are parameters; hypot and log correctly rounded, and sqrt of the sum of squares, are instances."
  },
  {
   "property": "C105",
   "status": "partial",
   "theorems": [
    "C105_single_force_partial",
    "C105_plane_refuted",
    "C105_space_refuted"
   ],
   "note": "Proved for coordinates and charges between 2^-150 and 2^150 in absolute value. False in general: the square (in the plane) or the cube (in space) of the distance underflows, and the force is reported as 0 (C105_plane_refuted) or is infinite or NaN (C105_space_refuted)."
  },
  {
   "property": "C106",
   "status": "proved",
   "theorems": [
    "C106_rounded_tree",
    "C106_given_order",
    "C106_given_order_potential"
   ],
   "note": "Forces of the three-dimensional expansions are not modelled in rounded arithmetic. The accuracy of the spherical harmonics, the norm and the logarithm of the libraries is a hypothesis, met by correctly rounded ones and, with half of the digits, by the table of the code (C109); overflow and underflow are not modelled in this layer."
  },
  {
   "property": "C107",
   "status": "proved",
   "theorems": [
    "C107_multipole_rounded",
    "C107_local_rounded",
    "C107_chain_rounded"
   ],
   "note": ""
  },
  {
   "property": "C108",
   "status": "proved",
   "theorems": [
    "C108_merge_in_steps",
    "C108_merge_undone",
    "C108_translations"
   ],
   "note": ""
  },
  {
   "property": "C109",
   "status": "partial",
   "theorems": [
    "C109_harmonics_refuted",
    "C109_table_entries",
    "C109_harmonics_partial",
    "C109_tree"
   ],
   "note": "False as stated: the table is computed from the rounded cosine of the polar angle, so two directions 2^-27 apart get the same table and one of them an error of at least 2^-29, for every Legendre library (C109_harmonics_refuted). Proved: the error bound with half of the digits near the axis and all of them away from it, and the tree theorem C106 with this table. Derivative table and forces not in rounded arithmetic."
  },
  {
   "property": "C110",
   "status": "proved",
   "theorems": [
    "C110_balanced_tree",
    "C110_given_height",
    "C110_given_height_potential"
   ],
   "note": "Forces of the three-dimensional expansions are not modelled in rounded arithmetic. Overflow and underflow are not modelled in this layer. The accuracy of the spherical harmonics is a hypothesis, met by correctly rounded ones and, with half of the digits, by the table of the code (C109), which the case uses."
  },
  {
   "property": "C111",
   "status": "partial",
   "theorems": [
    "C111_near_axis_refuted",
    "C111_tree_near_axis_refuted",
    "C111_local_force_partial",
    "C111_multipole_force_partial"
   ],
   "note": "False as stated: in double precision no force is computed within an angle of about 2^-28 of the vertical line (C111_near_axis_refuted), and the tree computes none there at any point of a leaf (C111_tree_near_axis_refuted). The partial theorems bound the error where the sine of the angle with the vertical is at least 10 sqrt w; between 2^-28 and 10 sqrt w nothing is proved. Overflow and underflow are not modelled in this layer. The accuracy of the Legendre library is a hypothesis, met by correctly rounded functions (C111_double)."
  },
  {
   "property": "C112",
   "status": "proved",
   "theorems": [
    "C112_space_energies",
    "C112_plane_energies",
    "C112_forces"
   ],
   "note": "Primitive floats of Coq (IEEE binary64, round to nearest even). hypot and log are arbitrary functions of the stated accuracy. One atomic update is one step, as in C83."
  },
  {
   "property": "C113",
   "status": "partial",
   "theorems": [
    "C113_coefficients_partial",
    "C113_multipole_overflow",
    "C113_local_overflow",
    "C113_large_units_refuted",
    "C113_small_units_refuted"
   ],
   "note": "Primitive floats of Coq (IEEE binary64, round to nearest even). Proved: finiteness of the coefficients of expansions formed from sources in a range of distances and orders. Refuted in general: for every expansion touched by an overflowing power (large distances, or small distances in the conversion and in local expansions of sources) all values are infinite or NaN. The finiteness of the later operations in a smaller range is C115; between the two ranges nothing is proved."
  },
  {
   "property": "C114",
   "status": "proved",
   "theorems": [
    "C114_counts"
   ],
   "note": "Primitive floats of Coq (IEEE binary64, round to nearest even); std::pow is an arbitrary function that is exact on powers of at most 53 bits."
  },
  {
   "property": "C115",
   "status": "proved",
   "theorems": [
    "C115_multipole",
    "C115_local"
   ],
   "note": "Primitive floats of Coq (IEEE binary64, round to nearest even). Underflow is allowed and only gives small values. The product is within a few roundings of the textbook formula, the quotient at most twice its exact size; both met by the textbook formulas (C115_arithmetic). The binomial entries for row i are at most 2^i, met by the table of the code for order 18 (case)."
  },
  {
   "property": "C116",
   "status": "proved",
   "theorems": [
    "C116_coefficients",
    "C116_expansion",
    "C116_direct_sum"
   ],
   "note": "Primitive floats of Coq (IEEE binary64, round to nearest even). The complex product is the textbook formula where that is not NaN in both parts; quotient and logarithm are given by their accuracy, met by the textbook formula (plain_accurate) and by a logarithm rounded once (rounded_log_accurate). Not covered: accuracy in doubles of merging, conversion and shifting, and of the local expansions (their rounded forms without underflow are C91, C94)."
  },
  {
   "property": "C117",
   "status": "proved",
   "theorems": [
    "C117_expansion",
    "C117_direct_sum"
   ],
   "note": "Primitive floats of Coq (IEEE binary64, round to nearest even). The complex product is the textbook formula where that is not NaN in both parts; the quotient is given by its accuracy, met by the textbook formula (plain_accurate). Not covered: accuracy in doubles of merging, conversion and shifting, and of the local expansions."
  }
 ]
}