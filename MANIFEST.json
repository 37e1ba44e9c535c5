{
 "claims": [
  {
   "property": "C01",
   "status": "proved",
   "theorems": [
    "C01_with_voltages_restores",
    "C01_nested_with_voltages"
   ],
   "note": ""
  },
  {
   "property": "C02",
   "status": "partial",
   "theorems": [
    "C02_failed_setup_refuted",
    "C02_failed_setup_leaks_rf",
    "C02_failed_setup_partial"
   ],
   "note": "Refuted as stated (finding F1): when dcs cannot be assigned and rfs is given, the finally clause assigns the requested rfs, so the failed block leaves the new rf voltages behind. C02_failed_setup_refuted and C02_failed_setup_leaks_rf are the counterexamples; C02_failed_setup_partial is the part that holds."
  },
  {
   "property": "C03",
   "status": "proved",
   "theorems": [
    "C03_set_dcs_positional",
    "C03_set_rfs_positional",
    "C03_set_names_positional",
    "C03_get_set_dcs",
    "C03_get_set_rfs",
    "C03_get_set_names",
    "C03_set_get_dcs",
    "C03_set_get_rfs_names",
    "C03_second_write_wins",
    "C03_refused"
   ],
   "note": ""
  },
  {
   "property": "C04",
   "status": "proved",
   "theorems": [
    "C04_lookup_by_name",
    "C04_lookup_by_index",
    "C04_lookup_by_other"
   ],
   "note": ""
  },
  {
   "property": "C05",
   "status": "proved",
   "theorems": [
    "C05_superposition",
    "C05_adding_electrodes"
   ],
   "note": ""
  },
  {
   "property": "C06",
   "status": "proved",
   "theorems": [
    "C06_accumulates",
    "C06_batch"
   ],
   "note": ""
  },
  {
   "property": "C07",
   "status": "proved",
   "theorems": [
    "C07_time_potential",
    "C07_time_potential_expanded",
    "C07_periodic",
    "C07_start_and_average"
   ],
   "note": ""
  },
  {
   "property": "C08",
   "status": "proved",
   "theorems": [
    "C08_pseudo_derivatives",
    "C08_pseudo_value"
   ],
   "note": ""
  },
  {
   "property": "C09",
   "status": "proved",
   "theorems": [
    "C09_nonnegative_and_zero",
    "C09_quadratic_in_voltages",
    "C09_quadratic_in_coefficient",
    "C09_symmetric"
   ],
   "note": ""
  },
  {
   "property": "C10",
   "status": "proved",
   "theorems": [
    "C10_total",
    "C10_bad_typ",
    "C10_no_rf_scale"
   ],
   "note": ""
  },
  {
   "property": "C11",
   "status": "partial",
   "theorems": [
    "C11_pseudo_high_is_index_error",
    "C11_refuted_documented_error",
    "C11_expanded_high_is_index_error",
    "C11_refuted_unexpanded_high_is_zero",
    "C11_supported_orders_return"
   ],
   "note": "False of the code as documented: pseudo_potential beyond order 4 raises IndexError (proved for every system), not ValueError, and unexpanded electrode potentials beyond order 5 are silently zero (proved). Expanded potentials beyond order 5 raise IndexError (proved)."
  },
  {
   "property": "C12",
   "status": "proved",
   "theorems": [
    "C12_expand_symmetric_traceless"
   ],
   "note": ""
  },
  {
   "property": "C13",
   "status": "proved",
   "theorems": [
    "C13_select_of_expand",
    "C13_expand_of_select",
    "C13_completion_unique",
    "C13_select_entries"
   ],
   "note": ""
  },
  {
   "property": "C14",
   "status": "proved",
   "theorems": [
    "C14_name_deriv_bijection",
    "C14_name_to_idx_spells",
    "C14_idx_to_name_sorts",
    "C14_nidx_rowmajor",
    "C14_reduced_idx",
    "C14_reduced_idx_out_of_range",
    "C14_unknown",
    "C14_import_succeeds"
   ],
   "note": ""
  },
  {
   "property": "C15",
   "status": "proved",
   "theorems": [
    "C15_find_laplace_sound",
    "C15_find_laplace_complete"
   ],
   "note": ""
  },
  {
   "property": "C16",
   "status": "proved",
   "theorems": [
    "C16_construct_derivative",
    "C16_construct_derivative_else_keyerror"
   ],
   "note": ""
  },
  {
   "property": "C17",
   "status": "proved",
   "theorems": [
    "C17_rotate_contracts",
    "C17_rotate_compose",
    "C17_rotate_identity",
    "C17_rotate_back",
    "C17_rotate_keeps_symmetric_traceless"
   ],
   "note": ""
  },
  {
   "property": "C18",
   "status": "proved",
   "theorems": [
    "C18_taylor_term",
    "C18_orthonormal",
    "C18_coefficient_is_overlap",
    "C18_other_lengths"
   ],
   "note": ""
  },
  {
   "property": "C19",
   "status": "proved",
   "theorems": [
    "C19_area",
    "C19_start_vertex",
    "C19_reverse",
    "C19_cut",
    "C19_shift",
    "C19_scale",
    "C19_triangle",
    "C19_rectangle"
   ],
   "note": ""
  },
  {
   "property": "C20",
   "status": "proved",
   "theorems": [
    "C20_potential",
    "C20_point_derivatives"
   ],
   "note": ""
  },
  {
   "property": "C21",
   "status": "proved",
   "theorems": [
    "C21_harmonic",
    "C21_harmonic_surface"
   ],
   "note": ""
  },
  {
   "property": "C22",
   "status": "proved",
   "theorems": [
    "C22_derivatives"
   ],
   "note": ""
  },
  {
   "property": "C23",
   "status": "proved",
   "theorems": [
    "C23_start_vertex",
    "C23_reverse",
    "C23_cut",
    "C23_paths_add"
   ],
   "note": ""
  },
  {
   "property": "C24",
   "status": "proved",
   "theorems": [
    "C24_mirror"
   ],
   "note": ""
  },
  {
   "property": "C25",
   "status": "proved",
   "theorems": [
    "C25_single_image",
    "C25_limit"
   ],
   "note": ""
  },
  {
   "property": "C26",
   "status": "proved",
   "theorems": [
    "C26_cover",
    "C26_values_and_gradient"
   ],
   "note": ""
  },
  {
   "property": "C27",
   "status": "proved",
   "theorems": [
    "C27_mesh",
    "C27_refuted_cover"
   ],
   "note": ""
  },
  {
   "property": "C28",
   "status": "proved",
   "theorems": [
    "C28_translation",
    "C28_scaling"
   ],
   "note": ""
  },
  {
   "property": "C29",
   "status": "proved",
   "theorems": [
    "C29_formulas_agree",
    "C29_python_divides_by_zero"
   ],
   "note": ""
  },
  {
   "property": "C30",
   "status": "proved",
   "theorems": [
    "C30_inside",
    "C30_outside",
    "C30_whole_turns",
    "C30_winding",
    "C30_winding_below"
   ],
   "note": ""
  },
  {
   "property": "C31",
   "status": "proved",
   "theorems": [
    "C31_pixels_add",
    "C31_proportional_to_areas",
    "C31_to_points"
   ],
   "note": ""
  },
  {
   "property": "C32",
   "status": "proved",
   "theorems": [
    "C32_inverse",
    "C32_origin",
    "C32_step",
    "C32_centred",
    "C32_to_xyz",
    "C32_points"
   ],
   "note": ""
  },
  {
   "property": "C33",
   "status": "proved",
   "theorems": [
    "C33_accumulates",
    "C33_stored",
    "C33_between",
    "C33_affine",
    "C33_clamps",
    "C33_linear"
   ],
   "note": ""
  },
  {
   "property": "C34",
   "status": "partial",
   "theorems": [
    "C34_keeps",
    "C34_available_partial",
    "C34_refuted_maxderiv",
    "C34_difference",
    "C34_affine"
   ],
   "note": "Orders 0..maxderiv-1 are proved available (C34_available_partial); the documented order maxderiv is never generated, proved by C34_refuted_maxderiv. The stored values, the difference formula and exactness on affine data are proved."
  },
  {
   "property": "C35",
   "status": "proved",
   "theorems": [
    "C35_groups",
    "C35_exactly_one",
    "C35_default",
    "C35_other"
   ],
   "note": ""
  },
  {
   "property": "C36",
   "status": "partial",
   "theorems": [
    "C36_same_field_partial",
    "C36_refuted_cover"
   ],
   "note": "Proved for polygon electrodes without a cover plane (cover_nmax = 0), for dc and rf, every order. With a cover plane it is false (C36_refuted_cover): group drops cover_nmax and cover_height."
  },
  {
   "property": "C37",
   "status": "partial",
   "theorems": [
    "C37_met_partial",
    "C37_last_met_partial",
    "C37_refuted_last"
   ],
   "note": "The constraints hold and all objectives but the last are met for every pseudo-inverse and every solver that respects its constraints. The last objective is not constrained by the code; it is met if its row takes part in g (C37_last_met_partial) and missed in general (C37_refuted_last)."
  },
  {
   "property": "C38",
   "status": "partial",
   "theorems": [
    "C38_vectors",
    "C38_unit_partial",
    "C38_refuted_initial",
    "C38_failure_leaks"
   ],
   "note": "Exact values of every objective on every vector are proved (C38_vectors); they are the unit vectors if additional objectives start at value 0 (C38_unit_partial) and not otherwise (C38_refuted_initial). A failing call leaves a value at 1 (C38_failure_leaks)."
  },
  {
   "property": "C39",
   "status": "partial",
   "theorems": [
    "C39_objective",
    "C39_total_partial",
    "C39_refuted_sum"
   ],
   "note": "The objective is proved to be that of the last local constraint plus all global ones (C39_objective), so the claim holds only if no other local constraint has terms (C39_total_partial); C39_refuted_sum is the counterexample."
  },
  {
   "property": "C40",
   "status": "proved",
   "theorems": [
    "C40_range_all",
    "C40_range_index",
    "C40_range_bad_index",
    "C40_single"
   ],
   "note": ""
  },
  {
   "property": "C41",
   "status": "proved",
   "theorems": [
    "C41_value",
    "C41_voltage_free",
    "C41_multi"
   ],
   "note": ""
  },
  {
   "property": "C42",
   "status": "proved",
   "theorems": [
    "C42_entries",
    "C42_polynomial",
    "C42_vanishes",
    "C42_bounds_inf",
    "C42_bounds_one",
    "C42_objective"
   ],
   "note": ""
  },
  {
   "property": "C43",
   "status": "proved",
   "theorems": [
    "C43_differences",
    "C43_bounds",
    "C43_norms",
    "C43_same",
    "C43_other_orders"
   ],
   "note": ""
  },
  {
   "property": "C44",
   "status": "proved",
   "theorems": [
    "C44_value",
    "C44_gradient_matches",
    "C44_hessian_matches",
    "C44_other_coordinates_stay",
    "C44_start"
   ],
   "note": ""
  },
  {
   "property": "C45",
   "status": "partial",
   "theorems": [
    "C45_gradient_symmetric_coord_partial",
    "C45_gradient_is_along_rows",
    "C45_refuted_rotations",
    "C45_result",
    "C45_converged",
    "C45_gives_up"
   ],
   "note": "The gradient is that of the potential if coord is symmetric (C45_gradient_symmetric_coord_partial) and is the derivative along the rows of coord in general; C45_refuted_rotations: saddle() rotates with coord where minimum() uses coord.T, so it is wrong for a proper rotation. The returned point and value are proved (C45_result)."
  },
  {
   "property": "C46",
   "status": "proved",
   "theorems": [
    "C46_step_length",
    "C46_consistent",
    "C46_hessian_symmetric",
    "C46_secant",
    "C46_iterations",
    "C46_status",
    "C46_direction"
   ],
   "note": ""
  },
  {
   "property": "C47",
   "status": "partial",
   "theorems": [
    "C47_float_start_partial",
    "C47_integer_start_truncates",
    "C47_refuted_integer_start",
    "C47_saddle_integer_start_raises",
    "C47_integer_start_toward_zero"
   ],
   "note": "Proved for float start points. An integer x0 truncates every trial point (C47_integer_start_truncates, C47_refuted_integer_start) and saddle() raises TypeError for it (C47_saddle_integer_start_raises)."
  },
  {
   "property": "C48",
   "status": "proved",
   "theorems": [
    "C48_times",
    "C48_ends",
    "C48_steps",
    "C48_lists_are_type_errors"
   ],
   "note": ""
  },
  {
   "property": "C49",
   "status": "partial",
   "theorems": [
    "C49_acceleration_is_plus_gradient",
    "C49_refuted_minus_gradient"
   ],
   "note": "False of the code: the acceleration is proved to be +grad (C49_acceleration_is_plus_gradient), refuted as -grad (C49_refuted_minus_gradient)."
  },
  {
   "property": "C50",
   "status": "proved",
   "theorems": [
    "C50_eigenpairs",
    "C50_refuted_documented_order"
   ],
   "note": "Component l belongs to harmonic r-l; the documented order -r...r is refuted (C50_refuted_documented_order)."
  },
  {
   "property": "C51",
   "status": "proved",
   "theorems": [
    "C51_equation_of_motion",
    "C51_exponents",
    "C51_sorted_ascending",
    "C51_sorted_keeps_stable_half"
   ],
   "note": ""
  },
  {
   "property": "C52",
   "status": "proved",
   "theorems": [
    "C52_sorted",
    "C52_unsorted"
   ],
   "note": ""
  },
  {
   "property": "C53",
   "status": "proved",
   "theorems": [
    "C53_pseudopotential"
   ],
   "note": ""
  },
  {
   "property": "C54",
   "status": "partial",
   "theorems": [
    "C54_close_partial",
    "C54_throw",
    "C54_refuted_close",
    "C54_one_ion",
    "C54_refuted_two_ions"
   ],
   "note": "Closing works except while suspended in the saddle search, where the bare except swallows GeneratorExit and close() raises RuntimeError (C54_refuted_close). For ions > 1 no mode line is ever produced: TypeError (C54_refuted_two_ions). Reports for one ion are complete (C54_one_ion)."
  },
  {
   "property": "C55",
   "status": "proved",
   "theorems": [
    "C55_recurrence",
    "C55_lengths",
    "C55_defined",
    "C55_equation",
    "C55_equation_odd"
   ],
   "note": ""
  },
  {
   "property": "C56",
   "status": "proved",
   "theorems": [
    "C56_derivatives",
    "C56_before",
    "C56_initial_values"
   ],
   "note": ""
  },
  {
   "property": "C57",
   "status": "partial",
   "theorems": [
    "C57_initial_value_at_0_partial",
    "C57_refuted_other_times",
    "C57_superposition_partial"
   ],
   "note": "Proved for t0 = 0. For every other t0 the call np.array(A,B) raises TypeError (C57_refuted_other_times); the two numbers themselves are right (C57_superposition_partial)."
  },
  {
   "property": "C58",
   "status": "proved",
   "theorems": [
    "C58_assign_to_pad"
   ],
   "note": ""
  },
  {
   "property": "C59",
   "status": "proved",
   "theorems": [
    "C59_every_fragment_once",
    "C59_labels"
   ],
   "note": ""
  },
  {
   "property": "C60",
   "status": "partial",
   "theorems": [
    "C60_pads",
    "C60_inside_partial",
    "C60_refuted_odd",
    "C60_opposite"
   ],
   "note": "Positions, order, pitch and symmetry are proved for both parities (C60_pads) and the placement step/2 inside for odd=False (C60_inside_partial). With odd=True it is false for every step and edge: the number of pads is raised by one or two, so pads lie outside (C60_refuted_odd)."
  },
  {
   "property": "C61",
   "status": "proved",
   "theorems": [
    "C61_remove_overlaps",
    "C61_each"
   ],
   "note": ""
  },
  {
   "property": "C62",
   "status": "proved",
   "theorems": [
    "C62_from_system",
    "C62_contours"
   ],
   "note": ""
  },
  {
   "property": "C63",
   "status": "proved",
   "theorems": [
    "C63_to_system"
   ],
   "note": ""
  },
  {
   "property": "C64",
   "status": "partial",
   "theorems": [
    "C64_read",
    "C64_covered",
    "C64_sorted",
    "C64_total",
    "C64_refuted_missing_name",
    "C64_refuted_routes"
   ],
   "note": "Proved if the structure exists. A missing name silently selects the last structure (C64_refuted_missing_name), and without gap_layers the route and bridge layers are ignored (C64_refuted_routes)."
  },
  {
   "property": "C65",
   "status": "partial",
   "theorems": [
    "C65_unify_by_name",
    "C65_names_once",
    "C65_filter",
    "C65_filter_deep",
    "C65_default_deep",
    "C65_refuted_default"
   ],
   "note": "Proved for every test. The documented default of filter (test=None, deep=False) raises TypeError on any non-empty list (C65_refuted_default)."
  },
  {
   "property": "C66",
   "status": "proved",
   "theorems": [
    "C66_mesh_input",
    "C66_ring_closed"
   ],
   "note": ""
  },
  {
   "property": "C67",
   "status": "partial",
   "theorems": [
    "C67_refinement_partial",
    "C67_size",
    "C67_refuted_border",
    "C67_refuted_none"
   ],
   "note": "The refinement rule, the size bound and the returned triple are proved. Refuted parts: a border edge (neighbor -1) is compared with the last triangle (C67_refuted_border); if the first mesh is already too large the result is None (C67_refuted_none). The loop's termination depends on the external mesher and is not claimed."
  },
  {
   "property": "C68",
   "status": "partial",
   "theorems": [
    "C68_lengths",
    "C68_values_partial",
    "C68_refuted_partial_first",
    "C68_refuted_unsaved"
   ],
   "note": "Equal lengths are proved for every sequence whose first saved call names all electrodes; last entries equal the voltages when all calls save. Refuted otherwise: a partial first saved call raises IndexError after changing voltages; an unsaved call changes the voltages but no history."
  },
  {
   "property": "C69",
   "status": "partial",
   "theorems": [
    "C69_refuted_reject",
    "C69_accept_partial",
    "C69_refuted_own"
   ],
   "note": "Refuted: next_step(accept=False) always raises AttributeError (self.Volts) and the proposed voltages stay. Proved instead: what accepting does; a user-supplied deltaV is applied and saved, then UnboundLocalError."
  },
  {
   "property": "C70",
   "status": "partial",
   "theorems": [
    "C70_polygons_partial",
    "C70_no_error",
    "C70_white_space",
    "C70_refuted_blank",
    "C70_refuted_python3"
   ],
   "note": "Proved for Python 2 and files without blank lines. Refuted: a blank line raises IndexError; in Python 3 any file with a polygon raises TypeError (map objects)."
  },
  {
   "property": "C71",
   "status": "proved",
   "theorems": [
    "C71_bijection"
   ],
   "note": ""
  },
  {
   "property": "C72",
   "status": "proved",
   "theorems": [
    "C72_to_and_back",
    "C72_back_and_to"
   ],
   "note": ""
  },
  {
   "property": "C73",
   "status": "proved",
   "theorems": [
    "C73_inverse",
    "C73_columns",
    "C73_refuted_gradient"
   ],
   "note": "The docstring's other reading, that to_spherical maps a gradient to (f_r, f_theta, f_phi), is false (C73_refuted_gradient): the matrices transform displacements and the order is (r, phi, theta)."
  },
  {
   "property": "C74",
   "status": "partial",
   "theorems": [
    "C74_round_trip",
    "C74_synthesis",
    "C74_analysis",
    "C74_shapes",
    "C74_refuted_modern_numpy"
   ],
   "note": "Proved for every nmax and array with numpy's old integer power; with numpy 1.12 or newer the constructor raises ValueError from nmax = 2 on (C74_refuted_modern_numpy). The exactness of scipy's nodes and Legendre tables is a hypothesis (exact_quadrature), shown to hold for nmax = 2."
  },
  {
   "property": "C75",
   "status": "proved",
   "theorems": [
    "C75_hamilton",
    "C75_associative",
    "C75_unit",
    "C75_norm",
    "C75_conjugate",
    "C75_inverse"
   ],
   "note": ""
  },
  {
   "property": "C76",
   "status": "partial",
   "theorems": [
    "C76_rotation",
    "C76_acts_by_conjugation",
    "C76_scale_partial",
    "C76_product_partial",
    "C76_inverse_partial",
    "C76_refuted_tiny"
   ],
   "note": "quaternion_matrix is a proper rotation for every q. Scaling, products and inverses are proved for |q|^2 >= eps = 2^-50 (of all quaternions involved); shorter ones are taken for the unit quaternion, which refutes the claim for all non-zero q (C76_refuted_tiny)."
  },
  {
   "property": "C77",
   "status": "proved",
   "theorems": [
    "C77_euler",
    "C77_tuples",
    "C77_no_other_names"
   ],
   "note": ""
  },
  {
   "property": "C78",
   "status": "partial",
   "theorems": [
    "C78_round_trip_partial",
    "C78_round_trip_close",
    "C78_refuted_near_lock",
    "C78_refuted_upper_case"
   ],
   "note": "Exact at gimbal lock and wherever the lock distance exceeds eps (C78_round_trip_partial); within eps of lock the claim is false (C78_refuted_near_lock), the error is at most 2 eps in every entry (C78_round_trip_close). euler_matrix rejects the upper case names which euler_from_matrix accepts."
  },
  {
   "property": "C79",
   "status": "proved",
   "theorems": [
    "C79_quaternion"
   ],
   "note": ""
  },
  {
   "property": "C80",
   "status": "proved",
   "theorems": [
    "C80_rigid",
    "C80_fixes_axis",
    "C80_rotates",
    "C80_additive",
    "C80_full_turns",
    "C80_default_point"
   ],
   "note": ""
  },
  {
   "property": "C81",
   "status": "proved",
   "theorems": [
    "C81_involution",
    "C81_determinant",
    "C81_mirrors"
   ],
   "note": ""
  },
  {
   "property": "C82",
   "status": "partial",
   "theorems": [
    "C82_translation",
    "C82_translations_add",
    "C82_scale",
    "C82_scale_direction",
    "C82_orthogonal_projection",
    "C82_parallel_projection",
    "C82_projections_idempotent",
    "C82_perspective",
    "C82_perspective_idempotent",
    "C82_pseudo",
    "C82_fixes_plane",
    "C82_shear",
    "C82_shear_fixes_plane",
    "C82_shear_moves",
    "C82_shear_rejects",
    "C82_refuted_shear_determinant"
   ],
   "note": "All proved, but shear_matrix also accepts directions up to 1e-6 off the plane, for which the determinant is not 1 (C82_refuted_shear_determinant)."
  },
  {
   "property": "C83",
   "status": "proved",
   "theorems": [
    "C83_box_corners",
    "C83_frustum_corners",
    "C83_box_interior",
    "C83_rejects",
    "C83_rejects_near"
   ],
   "note": ""
  },
  {
   "property": "C84",
   "status": "proved",
   "theorems": [
    "C84_precise",
    "C84_eigenvector"
   ],
   "note": ""
  },
  {
   "property": "C85",
   "status": "partial",
   "theorems": [
    "C85_end_points",
    "C85_unit_partial",
    "C85_arc",
    "C85_refuted_odd_spin"
   ],
   "note": "End points, and unit results along the great arc for even spin (0 is the default), for every fraction. For odd spin the results are not unit quaternions (C85_refuted_odd_spin)."
  },
  {
   "property": "C86",
   "status": "partial",
   "theorems": [
    "C86_history_partial",
    "C86_sphere",
    "C86_sphere_total",
    "C86_refuted_axis"
   ],
   "note": "Proved for every event history whose constraint axes are not zero and not along -z. For the axis (0, 0, -1) the orientation becomes nan (C86_refuted_axis)."
  },
  {
   "property": "C87",
   "status": "proved",
   "theorems": [
    "C87_onto",
    "C87_onto_rotations",
    "C87_injective",
    "C87_uniform",
    "C87_unit",
    "C87_rotation"
   ],
   "note": "Uniformity as: onto, one to one for 0 < r0 < 1, and volume factor of the parametrisation constant, 2 pi^2 (C87_uniform); the integral over a set is not formalised."
  },
  {
   "property": "C88",
   "status": "partial",
   "theorems": [
    "C88_pointwise_partial",
    "C88_refuted_one_point"
   ],
   "note": "Proved for arrays with at least two axes. Refuted for a single 1-D point: its coordinates are taken as separate points."
  },
  {
   "property": "C89",
   "status": "proved",
   "theorems": [
    "C89_about_axis"
   ],
   "note": ""
  },
  {
   "property": "C90",
   "status": "proved",
   "theorems": [
    "C90_hill_matrix",
    "C90_tolerance",
    "C90_tolerance_fails"
   ],
   "note": ""
  },
  {
   "property": "C91",
   "status": "proved",
   "theorems": [
    "C91_continued_fractions"
   ],
   "note": ""
  },
  {
   "property": "C92",
   "status": "proved",
   "theorems": [
    "C92_coverage",
    "C92_parts",
    "C92_refuted_all_area"
   ],
   "note": "For every lawful geometry, rounding of coordinates idealised as the identity. The documented claim that all area inside the square is output is false without gaps and routes (C92_refuted_all_area)."
  },
  {
   "property": "C93",
   "status": "proved",
   "theorems": [
    "C93_round_trip",
    "C93_covered"
   ],
   "note": "The elements in memory; the gdsii file encoding and its integer rounding are not modelled, and edge=None."
  },
  {
   "property": "C94",
   "status": "proved",
   "theorems": [
    "C94_names",
    "C94_restrict",
    "C94_add_gaps",
    "C94_validate",
    "C94_gaps_union",
    "C94_within",
    "C94_simplify",
    "C94_unify"
   ],
   "note": ""
  },
  {
   "property": "C95",
   "status": "proved",
   "theorems": [
    "C95_transformed_copy"
   ],
   "note": ""
  },
  {
   "property": "C96",
   "status": "proved",
   "theorems": [
    "C96_gradient_change",
    "C96_position"
   ],
   "note": ""
  },
  {
   "property": "C97",
   "status": "proved",
   "theorems": [
    "C97_orthonormal"
   ],
   "note": ""
  },
  {
   "property": "C98",
   "status": "proved",
   "theorems": [
    "C98_real_data"
   ],
   "note": ""
  },
  {
   "property": "C99",
   "status": "partial",
   "theorems": [
    "C99_energy",
    "C99_gradient",
    "C99_gradient_length",
    "C99_refuted_returns",
    "C99_refuted_hessian_raises",
    "C99_refuted_hessian",
    "C99_hessian_three"
   ],
   "note": "Energy and gradient are proved for every number of ions. The second derivatives are refuted: transpose(2, 0, 3, 1) puts the component before the ion, so h raises ValueError for every number of ions but three (C99_refuted_hessian_raises) and ions() never returns then (C99_refuted_returns); for three ions the matrix is not the Hessian (C99_refuted_hessian). What the matrix of three ions contains instead is C99_hessian_three."
  },
  {
   "property": "C100",
   "status": "proved",
   "theorems": [
    "C100_constraint",
    "C100_objective",
    "C100_negative_weight",
    "C100_refuted_equal"
   ],
   "note": "The values are arbitrary; equal=True is stated for affine values. C100_refuted_equal: for a bounded ForceConstraint equal=True raises (cvxopt refuses magnitude >= 0)."
  },
  {
   "property": "C101",
   "status": "proved",
   "theorems": [
    "C101_symmetry",
    "C101_refuted_constraints_only"
   ],
   "note": "A row with two negative indices leaves python booleans in the list (C101_refuted_constraints_only); they are true, so nothing is lost."
  },
  {
   "property": "C102",
   "status": "proved",
   "theorems": [
    "C102_potential"
   ],
   "note": ""
  },
  {
   "property": "C103",
   "status": "partial",
   "theorems": [
    "C103_bound",
    "C103_zero",
    "C103_refuted_coord_raises",
    "C103_refuted_coord",
    "C103_coord_three"
   ],
   "note": "Proved without coord. With coord rotate_tensor turns the electrode axis: ValueError unless there are three electrodes (C103_refuted_coord_raises), for three the bound is on something else (C103_refuted_coord; exactly what, C103_coord_three)."
  },
  {
   "property": "C104",
   "status": "partial",
   "theorems": [
    "C104_bounds",
    "C104_refuted_coord_raises",
    "C104_refuted_coord",
    "C104_coord_three"
   ],
   "note": "Proved without coord. With coord ValueError unless there are three electrodes, wrong for three (C104_refuted_coord_raises, C104_refuted_coord; exactly what is bounded, C104_coord_three)."
  },
  {
   "property": "C105",
   "status": "partial",
   "theorems": [
    "C105_data_kept",
    "C105_refuted_only_variable"
   ],
   "note": "Proved without only_variable; with it the caller's arrays are overwritten with zeros in place (C105_refuted_only_variable), so a later constraint without only_variable no longer sees the fixed electrodes. p0 is taken to be a 0-dimensional array."
  },
  {
   "property": "C106",
   "status": "partial",
   "theorems": [
    "C106_refuted_offset",
    "C106_no_electrodes"
   ],
   "note": "Refuted: electrodes have no attribute voltage_dc, so the constraint raises AttributeError for every non-empty list of electrodes (C106_refuted_offset). With no electrodes it bounds the offset of the reference (C106_no_electrodes)."
  },
  {
   "property": "C107",
   "status": "proved",
   "theorems": [
    "C107_round_trip",
    "C107_refused",
    "C107_order"
   ],
   "note": "numpy.linalg.inv is assumed right for invertible affine matrices (hypothesis inverts); an instance is proved."
  },
  {
   "property": "C108",
   "status": "proved",
   "theorems": [
    "C108_cell"
   ],
   "note": ""
  },
  {
   "property": "C109",
   "status": "proved",
   "theorems": [
    "C109_least_squares",
    "C109_superimposition",
    "C109_shapes"
   ],
   "note": "The svd or eigh is assumed right about the covariance matrix of the two sets (hypotheses svd_right, eigh_right). Three dimensions."
  },
  {
   "property": "C110",
   "status": "proved",
   "theorems": [
    "C110_rigid",
    "C110_similarity",
    "C110_affine"
   ],
   "note": "Hypotheses on svd, eigh, pinv, inv as in C109; all are shown to hold for a tetrahedron and its image."
  },
  {
   "property": "C111",
   "status": "partial",
   "theorems": [
    "C111_spread_partial",
    "C111_refuted_scale"
   ],
   "note": "Refuted: the scale is the ratio of the spreads, not the least squares scale (C111_refuted_scale). Proved instead: the result is a similarity that maps the centroid to the centroid and has the spread of the second set."
  },
  {
   "property": "C112",
   "status": "proved",
   "theorems": [
    "C112_extension",
    "C112_entries",
    "C112_bounds"
   ],
   "note": "Sequences of more than delta steps; shorter ones are mirrored only as far as they go."
  },
  {
   "property": "C113",
   "status": "partial",
   "theorems": [
    "C113_ends_partial",
    "C113_refuted_odd",
    "C113_refuted_inner"
   ],
   "note": "Refuted: orders 1 and 3 ignore smooth (C113_refuted_odd), order 4 leaves out the steps next to the ends (C113_refuted_inner). Proved: orders 2 and 4 add exactly the differences centred at the two ends."
  },
  {
   "property": "C114",
   "status": "proved",
   "theorems": [
    "C114_inverse",
    "C114_refuted_order"
   ],
   "note": "numpy.linalg.eig is an argument; eig_right states what numpy documents (unit eigenvectors, every eigenvalue listed, no order). C114_refuted_order: an order with a direction last gives a nan point."
  },
  {
   "property": "C115",
   "status": "partial",
   "theorems": [
    "C115_inverse_partial",
    "C115_refuted_small"
   ],
   "note": "numpy.linalg.eig is an argument; eig_right states what numpy documents (unit eigenvectors, every eigenvalue listed, no order). Refuted for 0 < 1 - cos(angle) < 1e-8: the angle may come back as 0 (C115_refuted_small). Proved for cos(angle) = 1 and cos(angle) <= 1 - 1e-8."
  },
  {
   "property": "C116",
   "status": "proved",
   "theorems": [
    "C116_along_direction",
    "C116_uniform",
    "C116_one"
   ],
   "note": "numpy.linalg.eig is an argument; eig_right states what numpy documents (unit eigenvectors, every eigenvalue listed, no order). Factors within 1e-8 of 1 but different from it are excluded by the statement."
  },
  {
   "property": "C117",
   "status": "partial",
   "theorems": [
    "C117_orthogonal",
    "C117_parallel",
    "C117_perspective_partial",
    "C117_pseudo_partial",
    "C117_refuted_one",
    "C117_refuted_origin",
    "C117_refuted_pseudo"
   ],
   "note": "numpy.linalg.eig is an argument; eig_right states what numpy documents (unit eigenvectors, every eigenvalue listed, no order). Refuted for perspective points one away from the plane (ValueError, C117_refuted_one), planes through the origin (nan, C117_refuted_origin), and pseudo=True when the eigenvalue -1 is listed last (C117_refuted_pseudo). Proved otherwise, and for all orthogonal and parallel projections."
  },
  {
   "property": "C118",
   "status": "partial",
   "theorems": [
    "C118_inverse_partial",
    "C118_refuted_zero",
    "C118_refuted_steep"
   ],
   "note": "numpy.linalg.eig is an argument; eig_right states what numpy documents (unit eigenvectors, every eigenvalue listed, no order). Refuted for angle 0 (nan, C118_refuted_zero) and for steep shears along directions slightly off the plane that shear_matrix accepts (C118_refuted_steep). Proved for directions in the plane."
  },
  {
   "property": "C119",
   "status": "proved",
   "theorems": [
    "C119_identity",
    "C119_translation",
    "C119_reflection",
    "C119_rotation",
    "C119_projection",
    "C119_clip",
    "C119_shear",
    "C119_orthogonalization",
    "C119_same_transform"
   ],
   "note": "For vectors of length at least 2**-50 (shorter ones raise ValueError in the extension) and, in clip_matrix, near != 2**-50."
  },
  {
   "property": "C120",
   "status": "partial",
   "theorems": [
    "C120_scale_partial",
    "C120_refuted_direction"
   ],
   "note": "Refuted for directions that are not unit vectors, which the extension does not normalise (C120_refuted_direction). Proved without a direction and for unit directions."
  },
  {
   "property": "C121",
   "status": "partial",
   "theorems": [
    "C121_matrix",
    "C121_angles",
    "C121_quaternion",
    "C121_default",
    "C121_tuples",
    "C121_valid_tuples",
    "C121_names_partial",
    "C121_other_names",
    "C121_refuted_backwards",
    "C121_refuted_upper_case",
    "C121_refuted_3x3"
   ],
   "note": "Matrices, angles and quaternions agree for all 24 names, all tuples and the default. Refuted: names read backwards are accepted (C121_refuted_backwards), upper case names and 3 x 3 matrices, which the Python euler_from_matrix takes, are refused (C121_refuted_upper_case, C121_refuted_3x3)."
  },
  {
   "property": "C122",
   "status": "proved",
   "theorems": [
    "C122_multiply",
    "C122_conjugate",
    "C122_inverse",
    "C122_about_axis",
    "C122_random",
    "C122_random_rotation"
   ],
   "note": ""
  },
  {
   "property": "C123",
   "status": "partial",
   "theorems": [
    "C123_matrix",
    "C123_refuted_argument"
   ],
   "note": "The matrix is right for all quaternions of length at least 2**-50. Refuted: an array of doubles passed as argument is normalised in place (C123_refuted_argument)."
  },
  {
   "property": "C124",
   "status": "partial",
   "theorems": [
    "C124_slerp_partial",
    "C124_refuted_backward"
   ],
   "note": "Refuted for fraction -1, for which the extension returns the second quaternion (C124_refuted_backward). Proved for all fractions that are 0, 1 or not within 2**-50 of 0, 1 and -1, and quaternions whose inner product is not exactly 1 - 2**-50 in magnitude."
  },
  {
   "property": "C125",
   "status": "proved",
   "theorems": [
    "C125_precise",
    "C125_refuted_sign"
   ],
   "note": "The sign may differ from that of the Python function (C125_refuted_sign). The square root of a negative number, nan in C, is not modelled; rotation matrices do not get there."
  },
  {
   "property": "C126",
   "status": "partial",
   "theorems": [
    "C126_sphere",
    "C126_constrain_partial",
    "C126_refuted_hemisphere"
   ],
   "note": "arcball_map_to_sphere agrees. arcball_constrain_to_axis returns the Python value or its negative; refuted: it does not turn the point to the front (C126_refuted_hemisphere)."
  },
  {
   "property": "C127",
   "status": "partial",
   "theorems": [
    "C127_matrices",
    "C127_quaternions",
    "C127_euler_partial",
    "C127_wrong_vectors",
    "C127_wrong_quaternions",
    "C127_wrong_matrices",
    "C127_refuted_slerp",
    "C127_refuted_from_matrix",
    "C127_refuted_name"
   ],
   "note": "Refuted for quaternion_slerp (NULL dereference for arguments of the wrong shape), quaternion_from_matrix with isprecise (PyEval_RestoreThread(NULL)) and axes names beyond ASCII. Proved for the others."
  },
  {
   "property": "C128",
   "status": "partial",
   "theorems": [
    "C128_inverse",
    "C128_refuses",
    "C128_refuted_tiny"
   ],
   "note": "The inverse is right whenever |det| >= 2**-50. Refuted: invertible matrices of smaller determinant, such as 2**-30 times the identity, are refused (C128_refuted_tiny)."
  },
  {
   "property": "C129",
   "status": "partial",
   "theorems": [
    "C129_result",
    "C129_found",
    "C129_refuted_singular",
    "C129_refuted_tiny"
   ],
   "note": "What is returned without infinities is the inverse, for every size; ValueError only within 1e-14 of a singular matrix. Refuted: a singular matrix whose last pivot alone vanishes gives infinities instead of an exception (C129_refuted_singular), and invertible matrices with small elements are refused (C129_refuted_tiny)."
  },
  {
   "property": "C130",
   "status": "partial",
   "theorems": [
    "C130_argument",
    "C130_shape",
    "C130_error",
    "C130_refuted_view",
    "C130_refuted_vector"
   ],
   "note": "Refuted for arguments that share their memory with the array numpy makes of them, which are overwritten (C130_refuted_view), and for one-dimensional arguments, for which the second dimension is read out of bounds (C130_refuted_vector)."
  },
  {
   "property": "C131",
   "status": "proved",
   "theorems": [
    "C131_tridiagonal",
    "C131_shape"
   ],
   "note": "Symmetric input; the elements that are not removed are bounded by 2**-50 and named in the theorem."
  },
  {
   "property": "C132",
   "status": "partial",
   "theorems": [
    "C132_ends",
    "C132_not_above",
    "C132_found_partial",
    "C132_matrix_partial",
    "C132_refuted"
   ],
   "note": "Ends for every matrix and never exceeds the largest eigenvalue by more than 3e-18; equal to it within 5e-19 unless a pivot of the search falls between -1e-18 and 0. Refuted there: for diagonal (-5e-19, 0, -1/2, -1/2) and subdiagonal (1, 0, 0) the result is at most 0, the largest eigenvalue about 1 (C132_refuted)."
  },
  {
   "property": "C133",
   "status": "partial",
   "theorems": [
    "C133_vector_partial",
    "C133_refuted_order",
    "C133_refuted_small"
   ],
   "note": "What is returned solves the eigenvalue equations in the order (1, 2, 3, 0) of the components, up to the characteristic polynomial. Refuted: in the order of the matrix it does not (C133_refuted_order); small matrices are refused although the eigenvalue is simple (C133_refuted_small)."
  },
  {
   "property": "C134",
   "status": "partial",
   "theorems": [
    "C134_ends",
    "C134_unit",
    "C134_rotation_partial",
    "C134_shape"
   ],
   "note": "Unit length, nonnegative scalar part and termination for all arguments; within 1e-6 of the right quaternion for all rotations for which the search for the eigenvalue is clear of pivots in (-1e-18, 0). The model computes with real numbers, in doubles pivots near 1/3 are spaced wider than that interval."
  },
  {
   "property": "C135",
   "status": "partial",
   "theorems": [
    "C135_ends",
    "C135_shape",
    "C135_rigid",
    "C135_similar",
    "C135_optimal_partial",
    "C135_refuted_small",
    "C135_refuted_line"
   ],
   "note": "Rigid motion or similarity and centroids: for all points. Optimal up to the error of the eigenvalue when its search is clear (C135_optimal_partial). Refuted: points within 1/60 of their centroid, and points on a line, are refused with ValueError (C135_refuted_small, C135_refuted_line); the Python implementation accepts them."
  },
  {
   "property": "C136",
   "status": "proved",
   "theorems": [
    "C136_numbers",
    "C136_uniform",
    "C136_errors"
   ],
   "note": "The content of /dev/urandom is an argument of the model; equally likely means that each k comes from 2048 of the 2**64 pairs of words."
  },
  {
   "property": "C137",
   "status": "partial",
   "theorems": [
    "C137_extension_all",
    "C137_extension_new_partial",
    "C137_extension_out_partial",
    "C137_extension_axis",
    "C137_extension_errors",
    "C137_python_all",
    "C137_python_new",
    "C137_python_out",
    "C137_python_shape",
    "C137_python_axis",
    "C137_refuted_shape",
    "C137_refuted_empty",
    "C137_refuted_overlap",
    "C137_refuted_type",
    "C137_refuted_axis"
   ],
   "note": "Holds for the Python function, and for the extension if the axis is not empty, out has the right shape and does not overlap data. Refuted otherwise: a too small out is written past its end (C137_refuted_shape), an empty axis gives uninitialised memory (C137_refuted_empty), overlap gives wrong lengths (C137_refuted_overlap), without axis the types differ (C137_refuted_type), Python ignores the axis of a one-dimensional array (C137_refuted_axis)."
  },
  {
   "property": "C138",
   "status": "partial",
   "theorems": [
    "C138_extension_partial",
    "C138_extension_shape",
    "C138_extension_axis",
    "C138_python_new",
    "C138_python_out_partial",
    "C138_python_axis",
    "C138_python_shape",
    "C138_python_long",
    "C138_refuted_vector",
    "C138_refuted_overlap"
   ],
   "note": "Holds for the extension if out is data or does not overlap it; for Python except one-dimensional arrays with axis and out, which raise ValueError after out has been overwritten (C138_refuted_vector). Refuted for the extension with other overlaps (C138_refuted_overlap)."
  },
  {
   "property": "C139",
   "status": "partial",
   "theorems": [
    "C139_import",
    "C139_missing",
    "C139_refuted_twice"
   ],
   "note": "Proved for every module and name space, with the warnings. Refuted: a second import replaces the kept Python functions by those of the extension (C139_refuted_twice)."
  },
  {
   "property": "C140",
   "status": "proved",
   "theorems": [
    "C140_applied",
    "C140_associates",
    "C140_one"
   ],
   "note": ""
  },
  {
   "property": "C141",
   "status": "proved",
   "theorems": [
    "C141_product",
    "C141_angle",
    "C141_nan"
   ],
   "note": "vector_product of single vectors; the norms of angle_between_vectors are those of C137."
  },
  {
   "property": "C142",
   "status": "partial",
   "theorems": [
    "C142_complete",
    "C142_sound",
    "C142_refuted_symmetric"
   ],
   "note": "Both directions proved for unit quaternions. Refuted: it is not symmetric, because numpy.allclose scales its tolerance by the second argument (C142_refuted_symmetric)."
  },
  {
   "property": "C143",
   "status": "proved",
   "theorems": [
    "C143_round_trip"
   ],
   "note": ""
  },
  {
   "property": "C144",
   "status": "proved",
   "theorems": [
    "C144_convex",
    "C144_convex_below",
    "C144_disjoint",
    "C144_parts",
    "C144_system"
   ],
   "note": "Counter-clockwise convex polygons with corners in strictly convex position, cover_nmax = 0; below the plane the potential is the negative (C144_convex_below)."
  },
  {
   "property": "C145",
   "status": "proved",
   "theorems": [
    "C145_slices",
    "C145_poisson"
   ],
   "note": "As an iterated Riemann integral, inner over the vertical slices of the inside; C145_slices shows that the slices are intervals."
  },
  {
   "property": "C146",
   "status": "partial",
   "theorems": [
    "C146_stored",
    "C146_others_ignored",
    "C146_no_file",
    "C146_wrong_size",
    "C146_refuted_order",
    "C146_refuted_empty",
    "C146_names"
   ],
   "note": "Proved for files whose first used array is the potential, up to maxderiv = 6; refuted for files with the field first or without both arrays (F59)."
  },
  {
   "property": "C147",
   "status": "proved",
   "theorems": [
    "C147_stored"
   ],
   "note": "For results whose arrays have the shape of the grid, up to maxderiv = 6."
  },
  {
   "property": "C148",
   "status": "partial",
   "theorems": [
    "C148_values",
    "C148_extrema",
    "C148_levels",
    "C148_levels_in_range",
    "C148_keywords",
    "C148_default_grid",
    "C148_bad_slice",
    "C148_bad_typ",
    "C148_empty_grid",
    "C148_no_grid",
    "C148_refuted_negative",
    "C148_refuted_constant"
   ],
   "note": "Values, extrema, keywords and errors proved; the default levels stay in range if the maximum is not negative; refuted otherwise and for constant potentials (F60). The drawing itself is matplotlib's."
  },
  {
   "property": "C149",
   "status": "proved",
   "theorems": [
    "C149_given_scale",
    "C149_default_scale",
    "C149_shade",
    "C149_empty",
    "C149_plot",
    "C149_plot_colours",
    "C149_intensity"
   ],
   "note": "matplotlib's colour maps and drawing are arguments."
  },
  {
   "property": "C150",
   "status": "partial",
   "theorems": [
    "C150_last_axis",
    "C150_scalar",
    "C150_refuted_axis_ignored",
    "C150_refuted_first_axis"
   ],
   "note": "Proved for the last axis; refuted for the others: the axis is ignored (F61)."
  },
  {
   "property": "C151",
   "status": "partial",
   "theorems": [
    "C151_in_order",
    "C151_pure",
    "C151_lazy",
    "C151_refuted",
    "C151_apply_method",
    "C151_apply_method_unknown"
   ],
   "note": "Proved for effect-free calls and for programs that get each result once, in order, and change nothing themselves in between; refuted otherwise: the call is made at the get, again at each get (F62)."
  },
  {
   "property": "C152",
   "status": "partial",
   "theorems": [
    "C152_unstructured",
    "C152_unstructured_errors",
    "C152_spherical",
    "C152_refuted_modern"
   ],
   "note": "SphericalGrid with numpy before 1.12; with later versions its construction raises ValueError for n > 1 (F63)."
  },
  {
   "property": "C153",
   "status": "partial",
   "theorems": [
    "C153_fit",
    "C153_parameters",
    "C153_open",
    "C153_result_parameters",
    "C153_equidistant",
    "C153_refuted_right_turn",
    "C153_refuted_start"
   ],
   "note": "scipy's splprep and splev are arguments. Weights proved for inner vertices and left turns; refuted for right turns and the first vertex (F64)."
  },
  {
   "property": "C154",
   "status": "proved",
   "theorems": [
    "C154_kept",
    "C154_raises",
    "C154_identity"
   ],
   "note": "With shapely before version 2 (iteration over multi-part geometries, len of a boundary)."
  },
  {
   "property": "C155",
   "status": "partial",
   "theorems": [
    "C155_independent",
    "C155_restored",
    "C155_body",
    "C155_refuted_same_system"
   ],
   "note": "Proved for threads that change nothing the others use; refuted for with_voltages blocks of two threads on one system (F65). The steps are reads and writes of single numbers."
  },
  {
   "property": "C156",
   "status": "partial",
   "theorems": [
    "C156_own_arrays",
    "C156_same_loops",
    "C156_refuted_shared"
   ],
   "note": "Proved for calls with different out arrays and constant inputs; refuted for two calls with the same array: a contribution can be lost (F66). The edge formula of order 0 is that of expressions.py (C29)."
  },
  {
   "property": "C157",
   "status": "proved",
   "theorems": [
    "C157_area",
    "C157_area_positive",
    "C157_centroid",
    "C157_distance",
    "C157_to_points",
    "C157_converges"
   ],
   "note": "The pieces share corners with the outline: each simple polygon has such a cut (not proved). Order 0 of the derivatives."
  },
  {
   "property": "C158",
   "status": "proved",
   "theorems": [
    "C158_same",
    "C158_between",
    "C158_poisson",
    "C158_area",
    "C158_system"
   ],
   "note": "Cuts run between corners and occur once in each direction. Without cover images, except C158_same."
  },
  {
   "property": "C159",
   "status": "partial",
   "theorems": [
    "C159_settled",
    "C159_returns",
    "C159_history",
    "C159_history_returns",
    "C159_refuted_axes",
    "C159_refuted_growing",
    "C159_refuted_slerp",
    "C159_refuted_from_matrix",
    "C159_refuted_iterators"
   ],
   "note": "C159_refuted_axes, _growing: axes given by name leave one reference per call behind (F67). C159_refuted_slerp, _from_matrix, _iterators: three functions crash on some failures (F44, F45, F68); when they come back nothing is left (C159_settled). Proved for all other functions and calls. Other threads changing counts while the lock is released are not modelled."
  },
  {
   "property": "C160",
   "status": "proved",
   "theorems": [
    "C160_orderly"
   ],
   "note": "Relies on PyArray_Return of NumPy, which returns NULL when an exception is set."
  },
  {
   "property": "C161",
   "status": "proved",
   "theorems": [
    "C161_drag",
    "C161_place",
    "C161_back",
    "C161_axis",
    "C161_next"
   ],
   "note": "Turns below the rounding threshold of the code (squared sine of half the turn below eps) are dropped by drag; next() after such a turn is outside C161_next. Axes not zero and not along -z (C86_refuted_axis); exact arithmetic."
  },
  {
   "property": "C162",
   "status": "proved",
   "theorems": [
    "C162_negated",
    "C162_scaled"
   ],
   "note": "Doubles without overflow, NaN and signed zeros; C162_negated includes underflow."
  },
  {
   "property": "C163",
   "status": "proved",
   "theorems": [
    "C163_linear",
    "C163_superposition",
    "C163_order"
   ],
   "note": "Doubles without overflow and underflow; orders above 5 add nothing."
  },
  {
   "property": "C164",
   "status": "proved",
   "theorems": [
    "C164_exact",
    "C164_potential",
    "C164_derivatives"
   ],
   "note": "Doubles without overflow and underflow; cover_nmax = 0; pow and M_PI are arguments with the stated accuracy. Polygons and meshes are C175 and C181."
  },
  {
   "property": "C165",
   "status": "partial",
   "theorems": [
    "C165_solutions",
    "C165_exponent",
    "C165_no_warning_stable",
    "C165_warning_unstable",
    "C165_refuted_no_complex",
    "C165_refuted_unstable_series",
    "C165_refuted_no_steps"
   ],
   "note": "Refuted parts: with numpy >= 1.24 (no np.complex) the unstable branch raises AttributeError (C165_refuted_no_complex); after the warning sol_y1 uses mu as nu, its series is bounded and arbitrarily far from the growing solution (C165_refuted_unstable_series). The integrator is an argument assumed exact at t = pi."
  },
  {
   "property": "C166",
   "status": "partial",
   "theorems": [
    "C166_det",
    "C166_det_unstable",
    "C166_converged",
    "C166_uninitialised",
    "C166_no_rf",
    "C166_consistent",
    "C166_invalid_mode",
    "C166_refuted_a0",
    "C166_refuted_modes"
   ],
   "note": "Refuted parts: the default mode raises ValueError for every a <= 0 and a = 4, 16, 36, 64, 100 (C166_refuted_a0); the modes d0ap and ivp without nc raise UnboundLocalError and leave the new exponent with the old coefficients (C166_refuted_modes)."
  },
  {
   "property": "C167",
   "status": "proved",
   "theorems": [
    "C167_even",
    "C167_odd"
   ],
   "note": "Exact real arithmetic; the solutions compared with exist for all a and q (C165_solutions)."
  },
  {
   "property": "C168",
   "status": "proved",
   "theorems": [
    "C168_sum",
    "C168_no_static_trap",
    "C168_trap_needs_gradient",
    "C168_rf_null",
    "C168_earnshaw"
   ],
   "note": "Exact real arithmetic; np.linalg.eigh is an argument assumed to return an orthonormal eigenbasis."
  },
  {
   "property": "C169",
   "status": "partial",
   "theorems": [
    "C169_outline",
    "C169_label",
    "C169_discs",
    "C169_points_label",
    "C169_system",
    "C169_system_each",
    "C169_nothing",
    "C169_refuted_empty",
    "C169_refuted_alpha",
    "C169_refuted_hole"
   ],
   "note": "Proved for electrodes that are not empty. Refuted: an electrode without polygons or points, or with an empty polygon, makes System.plot raise (F73); the transparency does not reach point electrodes (F74); points of negative area are not drawn (F75). Colours are C149; what matplotlib does with a path is the specification (SpecDraw.v)."
  },
  {
   "property": "C170",
   "status": "partial",
   "theorems": [
    "C170_arrays",
    "C170_one_vector",
    "C170_refuted_extension",
    "C170_first_axis_raises",
    "C170_refuted_first_axis"
   ],
   "note": "Proved for arrays with the same number of dimensions, and for one vector against vectors along the last axis. Refuted: with the extension the number of the last axis raises ValueError for one vector, where Python computes (F77); along the first axis, the default, one vector is taken for a row, so the angles with three vectors of three components are wrong (F78). For the extension the vectors must have components and the new arrays must not overlap the arguments."
  },
  {
   "property": "C171",
   "status": "proved",
   "theorems": [
    "C171_sums",
    "C171_normalised",
    "C171_first"
   ],
   "note": "Real arithmetic. The normalisation assumes that the two sums that are divided by are not 0."
  },
  {
   "property": "C172",
   "status": "proved",
   "theorems": [
    "C172_least_squares",
    "C172_rigid",
    "C172_similarity",
    "C172_affine",
    "C172_spread",
    "C172_shapes",
    "C172_superimposition"
   ],
   "note": "Real arithmetic. svd, eigh, pinv, inv and det are assumed right about the matrices they are given; all are shown to hold for a square and its image. Sets of equal points, for which the scale is nan, are excluded; that the scale is not the least squares one is C111."
  },
  {
   "property": "C173",
   "status": "proved",
   "theorems": [
    "C173_arrays",
    "C173_unique",
    "C173_plane",
    "C173_errors",
    "C173_exchanged",
    "C173_angle"
   ],
   "note": "Real arithmetic. numpy.cross is modelled as its own Python code (moveaxis, broadcasting, products), moveaxis and broadcasting by what numpy documents."
  },
  {
   "property": "C174",
   "status": "partial",
   "theorems": [
    "C174_polygons",
    "C174_positive",
    "C174_points",
    "C174_refuted_points",
    "C174_refuted_crossing",
    "C174_others"
   ],
   "note": "Proved for polygons that are outlines of areas and for pixels of positive area, without cover images (with them: C182_positive, C182_pixels). Refuted: pixels of negative area, which to_points makes of clockwise polygons, have orientation 1 (C174_refuted_points); a path that crosses itself may have orientation 1 and negative potential at some points (C174_refuted_crossing)."
  },
  {
   "property": "C175",
   "status": "proved",
   "theorems": [
    "C175_potential",
    "C175_roundings",
    "C175_million"
   ],
   "note": "Underflow and overflow are outside the arithmetic b64x, see the trusted base; derivatives are C181."
  },
  {
   "property": "C176",
   "status": "proved",
   "theorems": [
    "C176_images",
    "C176_limit",
    "C176_plane"
   ],
   "note": ""
  },
  {
   "property": "C177",
   "status": "proved",
   "theorems": [
    "C177_unique",
    "C177_exists",
    "C177_error",
    "C177_field"
   ],
   "note": ""
  },
  {
   "property": "C178",
   "status": "proved",
   "theorems": [
    "C178_solves",
    "C178_result",
    "C178_field",
    "C178_mesh",
    "C178_under",
    "C178_error",
    "C178_under_field"
   ],
   "note": ""
  },
  {
   "property": "C179",
   "status": "proved",
   "theorems": [
    "C179_direction",
    "C179_turn",
    "C179_pseudo",
    "C179_symmetric",
    "C179_mirror_plane"
   ],
   "note": ""
  },
  {
   "property": "C180",
   "status": "proved",
   "theorems": [
    "C180_expansion",
    "C180_minimum",
    "C180_necessary",
    "C180_rf_null",
    "C180_rf_trap",
    "C180_no_maximum",
    "C180_no_static_trap"
   ],
   "note": ""
  },
  {
   "property": "C181",
   "status": "proved",
   "theorems": [
    "C181_derivatives",
    "C181_million",
    "C181_away"
   ],
   "note": "Underflow and overflow are outside the arithmetic b64x, see the trusted base."
  },
  {
   "property": "C182",
   "status": "proved",
   "theorems": [
    "C182_images",
    "C182_strict",
    "C182_system",
    "C182_positive",
    "C182_pixels",
    "C182_under"
   ],
   "note": "C182_images, _strict and _system are without a cover electrode; with one, the sum of images can exceed the range by the error of C178_error, and C182_under is about the limit."
  },
  {
   "property": "C183",
   "status": "proved",
   "theorems": [
    "C183_pseudo",
    "C183_value",
    "C183_total",
    "C183_million",
    "C183_nonneg",
    "C183_left",
    "C183_exact",
    "C183_errors"
   ],
   "note": "Underflow and overflow are outside the arithmetic b64x, see the trusted base. np.einsum is an argument that puts at most three roundings on each of its three products (good_einsum); C183_left shows that adding them from left to right does."
  },
  {
   "property": "C184",
   "status": "proved",
   "theorems": [
    "C184_potential",
    "C184_derivatives",
    "C184_million",
    "C184_pseudo",
    "C184_pseudo_million",
    "C184_away",
    "C184_same"
   ],
   "note": "Underflow and overflow are outside the arithmetic b64x, see the trusted base. The oracles pow, pi, atan2 and einsum are as in C175, C181 and C183. Above the cover of an electrode with images nothing is claimed: the height of an image may cancel there."
  },
  {
   "property": "C185",
   "status": "proved",
   "theorems": [
    "C185_monotone",
    "C185_same",
    "C185_one",
    "C185_raised",
    "C185_images",
    "C185_any_images",
    "C185_under",
    "C185_under_strict"
   ],
   "note": "Systems of polygon electrodes that do not overlap (tiled_system); the voltage of the plane is SpecCompare.plane_voltage. C185_raised does not need that they do not overlap. C185_images also asks that each outline by itself is one of C158's (flat_area); it is strict where C185_monotone is."
  },
  {
   "property": "C186",
   "status": "proved",
   "theorems": [
    "C186_far",
    "C186_limit",
    "C186_next",
    "C186_field",
    "C186_pseudo"
   ],
   "note": "Systems of polygon electrodes without cover images that do not overlap (tiled_system). C186_next needs outlines of area other than 0, as area_centroid divides by the area."
  },
  {
   "property": "C187",
   "status": "proved",
   "theorems": [
    "C187_barrier",
    "C187_static",
    "C187_unbounded",
    "C187_height",
    "C187_strict",
    "C187_linked",
    "C187_height_strict"
   ],
   "note": "potential_entry is the entry of System.potential that C180 uses; smooth excludes electrodes of unknown type and meshes that are not closed. The regions without bound need polygon electrodes that do not overlap (tiled_system), whose potential decays by C186. linked (SpecBarrier) is a chain of balls inside the region."
  },
  {
   "property": "C188",
   "status": "proved",
   "theorems": [
    "C188_above",
    "C188_determined",
    "C188_field",
    "C188_field_determined"
   ],
   "note": "local_electrode (SpecBarrier): pixels of any area, or polygons with pieces inside a disc, without cover images. Cover electrodes, whose potential grows with the height, are not among them."
  }
 ]
}