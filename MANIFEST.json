{
 "claims": [
  {
   "property": "C01",
   "status": "proved",
   "theorems": [
    "C01_reciprocal_basis_dual",
    "C01_named_lattices_qualify"
   ],
   "note": ""
  },
  {
   "property": "C02",
   "status": "proved",
   "theorems": [
    "C02_cell_and_zone_area",
    "C02_area_independent_of_basis"
   ],
   "note": ""
  },
  {
   "property": "C03",
   "status": "proved",
   "theorems": [
    "C03_square_points",
    "C03_square_points_on_zone_boundary",
    "C03_hexagonal_points",
    "C03_hexagonal_points_on_zone_boundary",
    "C03_unknown_names_rejected",
    "C03_explicit_lattices_have_no_named_points"
   ],
   "note": ""
  },
  {
   "property": "C04",
   "status": "proved",
   "theorems": [
    "C04_path_visits_every_point",
    "C04_errors_exactly",
    "C04_indexes_strictly_increase"
   ],
   "note": ""
  },
  {
   "property": "C05",
   "status": "proved",
   "theorems": [
    "C05_abscissa_is_normalised_length"
   ],
   "note": ""
  },
  {
   "property": "C06",
   "status": "partial",
   "theorems": [
    "C06_int_sample_count_refuted",
    "C06_int_sample_count_always_fails",
    "C06_one_element_list_partial"
   ],
   "note": "False of the code: an integer ns always raises TypeError (refuted); the one-element-list form is proved."
  },
  {
   "property": "C07",
   "status": "partial",
   "theorems": [
    "C07_number_of_periods_refuted",
    "C07_grid_width_refuted",
    "C07_grid_width_partial"
   ],
   "note": "False of the code: a plain number raises TypeError and negative components shrink the grid (refuted); proved when each pair of components has a non-negative sum."
  },
  {
   "property": "C08",
   "status": "proved",
   "theorems": [
    "C08_stack_is_contiguous",
    "C08_history_contents"
   ],
   "note": ""
  },
  {
   "property": "C09",
   "status": "proved",
   "theorems": [
    "C09_every_height_in_one_region",
    "C09_get_eps_uses_that_region",
    "C09_nothing_outside"
   ],
   "note": ""
  },
  {
   "property": "C10",
   "status": "partial",
   "theorems": [
    "C10_lookup_matches_map_refuted",
    "C10_lookup_wrong_at_every_interface",
    "C10_lookup_matches_map_partial"
   ],
   "note": "False of the code at every interface (refuted with witness; the general failure is C10_lookup_wrong_at_every_interface); proved for every height that is not an interface."
  },
  {
   "property": "C11",
   "status": "proved",
   "theorems": [
    "C11_accepted_well_stays_inside",
    "C11_rejection_condition"
   ],
   "note": ""
  },
  {
   "property": "C12",
   "status": "partial",
   "theorems": [
    "C12_failed_edit_changes_nothing_refuted",
    "C12_failed_edit_changes_nothing_partial",
    "C12_what_a_failed_list_leaves_behind",
    "C12_successful_add_shape_frame",
    "C12_add_shape_errors"
   ],
   "note": "False of the code for a list of shapes with a non-shape after a shape (refuted); proved for every other rejected call, plus the exact state left by the bad list and the frame of a successful call."
  },
  {
   "property": "C13",
   "status": "proved",
   "theorems": [
    "C13_average_permittivity",
    "C13_order_and_grouping_irrelevant",
    "C13_average_between_bounds"
   ],
   "note": ""
  },
  {
   "property": "C14",
   "status": "proved",
   "theorems": [
    "C14_layer_transform",
    "C14_order_irrelevant",
    "C14_background_shape_contributes_nothing",
    "C14_conjugate_symmetry"
   ],
   "note": ""
  },
  {
   "property": "C15",
   "status": "proved",
   "theorems": [
    "C15_last_shape_wins",
    "C15_last_shape_wins_functional",
    "C15_bounds_are_attained_and_bound",
    "C15_map_within_bounds"
   ],
   "note": ""
  },
  {
   "property": "C16",
   "status": "partial",
   "theorems": [
    "C16_pointwise_refuted",
    "C16_periodic_refuted",
    "C16_orthogonal_lattices_partial",
    "C16_true_periodic_map_partial",
    "C16_reach_partial",
    "C16_hexagonal_partial",
    "C16_home_cell_partial"
   ],
   "note": "False of the code: neither pointwise nor periodic in general (two refutations); proved for orthogonal lattices with shapes within one period of the origin, and for any lattice on meshes that are not too large (condition on the reciprocal vectors; hexagonal: shapes within half a period, mesh up to 15/8 periods each way); on any mesh for the points of the unit cell that holds all shapes."
  },
  {
   "property": "C17",
   "status": "partial",
   "theorems": [
    "C17_exciton_potential_refuted",
    "C17_one_shape_partial",
    "C17_unit_cell_area_partial",
    "C17_attractive_partial"
   ],
   "note": "False of the code for two shapes in a cell whose area is not 1 (refuted); proved for one shape and for unit cell area."
  },
  {
   "property": "C18",
   "status": "proved",
   "theorems": [
    "C18_circle_hermitian",
    "C18_ellipse_hermitian",
    "C18_polygon_hermitian"
   ],
   "note": "Circle, Ellipse (any J1) and every accepted polygon, hence Square/Hexagon/FourierShape."
  },
  {
   "property": "C19",
   "status": "proved",
   "theorems": [
    "C19_accepted_iff_area_nonnegative",
    "C19_bad_lists_rejected",
    "C19_reversal_cycle_translation",
    "C19_square",
    "C19_hexagon",
    "C19_fourier_shape_accepted",
    "C19_fourier_shape_rejected",
    "C19_fourier_shape_errors"
   ],
   "note": "Acceptance iff signed area >= 0, stored area and vertices, error cases, reversal/cycle/translation, Square, Hexagon, FourierShape (accepted, with its area; rejected on a negative sample)."
  },
  {
   "property": "C20",
   "status": "proved",
   "theorems": [
    "C20_after_any_rotations",
    "C20_distances_kept",
    "C20_composition_and_full_turn"
   ],
   "note": "For any sequence of rotations of any accepted polygon of positive area."
  },
  {
   "property": "C21",
   "status": "partial",
   "theorems": [
    "C21_circle_translation",
    "C21_polygon_translation",
    "C21_ellipse_translation_partial",
    "C21_ellipse_set_partial",
    "C21_ellipse_centre_refuted",
    "C21_ellipse_phase_refuted"
   ],
   "note": "Proved for Circle and polygons. The claim that (x_cent, y_cent) is the centre of a rotated Ellipse is refuted (for is_inside and for the transform); the partial theorem says where the centre really is. matplotlib's Path.contains_points is not modelled."
  },
  {
   "property": "C22",
   "status": "partial",
   "theorems": [
    "C22_limit_of_regularisers",
    "C22_code_error_bound_partial",
    "C22_code_regularisers_refuted"
   ],
   "note": "The transform tends to the winding-number-weighted integral as the regularisers (r, r^2, r^5) vanish, for every polygon and every G that is 0 or has a component >= 1e-10; for the literal regularisers an explicit error bound is proved, and a refutation shows a G where the literal regularisers drop an edge (error >= 0.2 on a unit square)."
  },
  {
   "property": "C23",
   "status": "proved",
   "theorems": [
    "C23_circle_area",
    "C23_ellipse_area"
   ],
   "note": "J1 is its power series; also the analogous bound for ellipses."
  },
  {
   "property": "C24",
   "status": "proved",
   "theorems": [
    "C24_tbt_block"
   ],
   "note": ""
  },
  {
   "property": "C25",
   "status": "partial",
   "theorems": [
    "C25_abs_set_partial",
    "C25_named_lattices_covered",
    "C25_oblique_refuted"
   ],
   "note": "The full statement is false for strongly oblique bases (a1=(1,0), a2=(10,1), gmax=3/2 misses a vector well inside the circle); proved whenever the candidate box covers the circle, which is automatic for square and hexagonal lattices."
  },
  {
   "property": "C26",
   "status": "partial",
   "theorems": [
    "C26_loop_terminates_partial",
    "C26_loop_binary64_refuted"
   ],
   "note": "Proved over the reals, with the exact number of steps. Refuted in binary64: half-micron lattice constant in metres with gmax=3/a never leaves the loop."
  },
  {
   "property": "C27",
   "status": "proved",
   "theorems": [
    "C27_tbt_matrix"
   ],
   "note": "Exact up to the imaginary parts the code itself drops (relative size below 1e-10)."
  },
  {
   "property": "C28",
   "status": "partial",
   "theorems": [
    "C28_abs_matrix_partial",
    "C28_abs_equals_tbt_refuted"
   ],
   "note": "False as stated: the entry is the transform at g_j - g_i (transpose of the tbt convention); proved in that form, and the difference exhibited for an off-centre circle."
  },
  {
   "property": "C29",
   "status": "proved",
   "theorems": [
    "C29_matrix_hermitian",
    "C29_no_modes"
   ],
   "note": "Shape, Hermiticity, real diagonal, block entries and the RuntimeError, for every mode table; also which plane waves enter for each mode."
  },
  {
   "property": "C30",
   "status": "proved",
   "theorems": [
    "C30_elements_adjoint",
    "C30_all_pairs",
    "C30_order_free"
   ],
   "note": "Exact adjoint law with the regulariser's sign flipped, for all four polarisation blocks; without the regulariser (dl = 0) every entry is the element of its own ordered pair and the matrix does not depend on the order of the requested modes."
  },
  {
   "property": "C31",
   "status": "proved",
   "theorems": [
    "C31_chi_branch"
   ],
   "note": "all real omega, g, eps"
  },
  {
   "property": "C32",
   "status": "proved",
   "theorems": [
    "C32_vectorised_is_scalar",
    "C32_three_layer_form",
    "C32_real"
   ],
   "note": "vectorised and scalar routine agree for every stack and spelling; the three-layer closed form has the same zeros as the transfer-matrix form in the guided window; the transfer-matrix quantity is real when both claddings are evanescent and no chi vanishes"
  },
  {
   "property": "C33",
   "status": "proved",
   "theorems": [
    "C33_search",
    "C33_guided_modes",
    "C33_root_of_condition"
   ],
   "note": "for any root finder that returns a root inside a sign-changing bracket; guided_mode_given_g and the loop of guided_modes (with its 1e-8 reuse rule); needs n_modes > 0 for the loop"
  },
  {
   "property": "C34",
   "status": "proved",
   "theorems": [
    "C34_interfaces",
    "C34_derivative"
   ],
   "note": "every interface of any stack with non-zero chi; upper cladding has no growing wave iff D22 = 0"
  },
  {
   "property": "C35",
   "status": "proved",
   "theorems": [
    "C35_normalisation",
    "C35_returned_modes"
   ],
   "note": "up to the 1e-20 regulariser, whose effect is bounded by reg*K with K an explicit integral; returned modes have energy within reg*K of 1"
  },
  {
   "property": "C36",
   "status": "partial",
   "theorems": [
    "C36_spelling_refuted",
    "C36_spelling_partial"
   ],
   "note": "refuted: guided_modes raises for 'te' once a mode exists, rad_modes scales 'te' but not 'TE'; proved: guided_modes never returns a different answer for another spelling, rad_modes ignores the case of 'tm'"
  },
  {
   "property": "C37",
   "status": "proved",
   "theorems": [
    "C37_fields_obey_maxwell",
    "C37_basis_curl"
   ],
   "note": "for every superposition of guided modes, every plane wave with G+k not 0 and every z off the interfaces, curl H = -i omega D componentwise, div H = 0 and div D = 0 for the fields ft_field_xy returns; C37_basis_curl ties each basis function to the curl field of C77. Heights on an interface are excluded (the derivative does not exist there)."
  },
  {
   "property": "C38",
   "status": "partial",
   "theorems": [
    "C38_bands",
    "C38_too_many",
    "C38_no_failure",
    "C38_eigsh_partial",
    "C38_eigsh_refuted"
   ],
   "note": "Proved for the dense solver for whole runs. With eig_solver='eigsh' the selection is by |omega^2-sigma^2|, so the nearest-frequency part is refuted there; the omega^2 version is proved."
  },
  {
   "property": "C39",
   "status": "partial",
   "theorems": [
    "C39_reflection",
    "C39_maps_lattice_partial",
    "C39_tilted_lattice_refuted",
    "C39_rounded_angle_refuted",
    "C39_accepted_angles",
    "C39_refused_angles"
   ],
   "note": "The matrix is the geometric reflection for every angle (proved). Mapping the reciprocal lattice onto itself is proved for whole-degree accepted angles on the named and the axis-aligned rectangular lattices, and refuted for a tilted rectangular lattice and for an angle accepted only because of rounding to 8 decimals."
  },
  {
   "property": "C40",
   "status": "partial",
   "theorems": [
    "C40_used_set_invariant_partial",
    "C40_shift_refuted"
   ],
   "note": "Proved without the shift delta_gx or when no plane wave lies within it of a threshold; refuted with the shift (a plane wave just above the threshold whose partner is just below, so that _ind_g raises ValueError)."
  },
  {
   "property": "C41",
   "status": "proved",
   "theorems": [
    "C41_even_odd_basis"
   ],
   "note": "Dense and sparse routine; also shows that the even/odd columns span exactly the even/odd vectors and gives the difference of the counts."
  },
  {
   "property": "C42",
   "status": "proved",
   "theorems": [
    "C42_dense_separation",
    "C42_sparse_separation"
   ],
   "note": "Dense and sparse routine; when one parity is absent the code raises ValueError, which is part of the statement."
  },
  {
   "property": "C43",
   "status": "partial",
   "theorems": [
    "C43_labels_partial",
    "C43_one_matrix_partial",
    "C43_more_odd_refuted"
   ],
   "note": "Labels are right whenever the run succeeds (whole runs and single matrices); refuted: with more odd than even states the labelling array is too short and run() raises IndexError."
  },
  {
   "property": "C44",
   "status": "partial",
   "theorems": [
    "C44_needs_all_partial",
    "C44_missing_mode_refuted"
   ],
   "note": "Refuted: a requested guided mode that is missing at a k-point makes the symmetry separation raise IndexError; proved: every successful symmetric run had all requested modes."
  },
  {
   "property": "C45",
   "status": "partial",
   "theorems": [
    "C45_history_partial",
    "C45_losses_kept",
    "C45_modes_kept",
    "C45_stale_losses_refuted"
   ],
   "note": "Proved for runs without kz_symmetry and, for truncation 'abs', constant only_gmodes, except freqs_im when compute_im=False; refuted for freqs_im (stale losses); stale ind_modes with a symmetry proved."
  },
  {
   "property": "C46",
   "status": "proved",
   "theorems": [
    "C46_loss_rates",
    "C46_rate_exists",
    "C46_no_failure",
    "C46_stored_modes",
    "C46_other_modes"
   ],
   "note": "Rates from the model of compute_rad / rad_components against the written-out sum over open channels; non-failure stated separately."
  },
  {
   "property": "C47",
   "status": "proved",
   "theorems": [
    "C47_below_light_line",
    "C47_no_failure"
   ],
   "note": "Zero loss for a mode with no channel below its frequency; the quantities returned are empty sums."
  },
  {
   "property": "C48",
   "status": "proved",
   "theorems": [
    "C48_unbalance"
   ],
   "note": "Unbalance between the two losses of a channel lies in [0,1] and reports the stated share."
  },
  {
   "property": "C49",
   "status": "proved",
   "theorems": [
    "C49_matrices_positive",
    "C49_bands",
    "C49_uniform",
    "C49_scaling"
   ],
   "note": "Both matrices Hermitian and positive; whole runs return the lowest bands; uniform layers give |k+G|/(2 pi sqrt eps); scaling of the permittivity. The uniform case assumes that distinct plane waves differ by at least 1e-10 (the tolerance of compute_ft), shown for the square lattice."
  },
  {
   "property": "C50",
   "status": "partial",
   "theorems": [
    "C50_eps_eff_refuted",
    "C50_eps_eff_never_read"
   ],
   "note": "False of the code: eps_eff is stored and never read (refuted, and proved for all inputs that it never matters)."
  },
  {
   "property": "C51",
   "status": "partial",
   "theorems": [
    "C51_curl_refuted",
    "C51_fields_partial"
   ],
   "note": "False of the code: D lacks the factor |k+G| and its sign depends on the polarisation. Proved instead: transversality to k+G+(1e-10,0) and |k+G| D = +-(1/omega) curl H."
  },
  {
   "property": "C52",
   "status": "partial",
   "theorems": [
    "C52_eps_series_partial",
    "C52_dropped_refuted",
    "C52_abs"
   ],
   "note": "tbt: the map is the Fourier series over exactly the differences of plane waves, each once; coefficients exact or with an imaginary part below 1e-10 relative dropped, distance to the exact (real) series bounded, equality for real transforms. Exact equality refuted (imaginary parts of 1e-11). abs: proved exactly."
  },
  {
   "property": "C53",
   "status": "proved",
   "theorems": [
    "C53_hermitian",
    "C53_potential_hermitian",
    "C53_run",
    "C53_free",
    "C53_shift"
   ],
   "note": "For truncation 'abs' the operator is that of the mirrored potential (see C88)."
  },
  {
   "property": "C54",
   "status": "partial",
   "theorems": [
    "C54_get_pot_refuted",
    "C54_tbt_partial",
    "C54_abs_partial"
   ],
   "note": "Refuted for 'tbt' (IndexError for every object and grid); proved for 'abs'."
  },
  {
   "property": "C55",
   "status": "proved",
   "theorems": [
    "C55_pairs",
    "C55_dark"
   ],
   "note": "Proved for any number of wells (the statement asks for one)."
  },
  {
   "property": "C56",
   "status": "proved",
   "theorems": [
    "C56_fractions",
    "C56_unit"
   ],
   "note": "For any numbers of modes, levels and wells, for everything a run stores."
  },
  {
   "property": "C57",
   "status": "partial",
   "theorems": [
    "C57_all_wells_refuted",
    "C57_photon_block_partial",
    "C57_levels",
    "C57_one_well_partial"
   ],
   "note": "Refuted: with two wells the off-diagonal blocks hold the D of the last well only. Proved: the diagonal blocks hold the real part of the full sum; with one well the off-diagonal blocks are complete."
  },
  {
   "property": "C58",
   "status": "partial",
   "theorems": [
    "C58_all_positive_refuted",
    "C58_lowest_partial",
    "C58_one_lost_partial"
   ],
   "note": "Refuted: the highest positive energy is dropped. Proved: the reported ones are the N+K-1 lowest non-negative ones, ascending; N+K exist when the matrix has an eigenbasis and no eigenvalue on the imaginary axis."
  },
  {
   "property": "C59",
   "status": "proved",
   "theorems": [
    "C59_bounds",
    "C59_no_failure"
   ],
   "note": "The objective is an arbitrary function of all its calls so far; nan is outside the model."
  },
  {
   "property": "C60",
   "status": "partial",
   "theorems": [
    "C60_last_value_refuted",
    "C60_history_partial",
    "C60_afresh_partial"
   ],
   "note": "Refuted for Nepochs = 1 with a starting point outside the bounds; proved otherwise (harmless)."
  },
  {
   "property": "C61",
   "status": "partial",
   "theorems": [
    "C61_untouched_refuted",
    "C61_untouched_partial"
   ],
   "note": "Refuted for Nepochs = 1 with bounds: the caller's array is snapped in place; proved otherwise."
  },
  {
   "property": "C62",
   "status": "proved",
   "theorems": [
    "C62_path",
    "C62_constant",
    "C62_first"
   ],
   "note": "The path of the whole run, the constant-gradient formula and the first step."
  },
  {
   "property": "C63",
   "status": "partial",
   "theorems": [
    "C63_lbfgs_refuted",
    "C63_lbfgs_fails_partial",
    "C63_lbfgs_partial",
    "C63_adam_partial"
   ],
   "note": "Refuted for lbfgs, whose first call lacks the optimiser (an objective needing it always fails); proved for adam and for all later calls of lbfgs."
  },
  {
   "property": "C64",
   "status": "proved",
   "theorems": [
    "C64_extend",
    "C64_extend_total",
    "C64_extend_single",
    "C64_spdot",
    "C64_inv",
    "C64_interp",
    "C64_interp_above",
    "C64_interp_total",
    "C64_toeplitz",
    "C64_solver_lists"
   ],
   "note": "Adjointness along every differentiable curve, in autograd's unconjugated real pairing; extend for index lists without repetition, spdot, inv (differentiability of the inverse proved), interp inside the node range (above it IndexError, C64_interp_above), toeplitz_block for consistent lists, which the lists of recip_tbt are."
  },
  {
   "property": "C65",
   "status": "proved",
   "theorems": [
    "C65_backend",
    "C65_print"
   ],
   "note": "One call switches or raises ValueError leaving the backend unchanged; by induction over any list of calls the active backend is the last one validly named. Both with and without the optional packages."
  },
  {
   "property": "C66",
   "status": "partial",
   "theorems": [
    "C66_zero_refuted",
    "C66_conversion_partial"
   ],
   "note": "Refuted for a Python 0 or 0.0: the quotient comes before the test, so ZeroDivisionError is raised. Everything else holds: ValueError below 0 and for a numpy 0, c/a with one c>0 above."
  },
  {
   "property": "C67",
   "status": "proved",
   "theorems": [
    "C67_find_nearest"
   ],
   "note": "Any argsort that sorts, whatever its tie-breaking."
  },
  {
   "property": "C68",
   "status": "proved",
   "theorems": [
    "C68_series",
    "C68_associative",
    "C68_identity",
    "C68_arrays"
   ],
   "note": "The product is proved to be the scattering matrix of the two in series (elimination of the inner waves); associativity follows (three denominators non-zero, the fourth is then non-zero), and empty space is a two-sided identity."
  },
  {
   "property": "C69",
   "status": "partial",
   "theorems": [
    "C69_integer_array_refuted",
    "C69_integer_step_refuted",
    "C69_scalar_step_fails",
    "C69_scalar_step_one",
    "C69_affine_partial",
    "C69_quadratic_partial",
    "C69_limit_partial",
    "C69_error_partial"
   ],
   "note": "Refuted for arrays of integer dtype (the perturbed entry is truncated) and for Python int steps (AttributeError). For float arrays exact on affine functions and off by step times the diagonal coefficient on quadratic ones; shape kept and no existing array modified (heap model). Beyond the statement: for every function with partial derivatives the result tends to them with the steps, and is off by at most M times the step where they move by at most M times the distance."
  },
  {
   "property": "C70",
   "status": "partial",
   "theorems": [
    "C70_fourier_refuted",
    "C70_hexagon_refuted",
    "C70_all_or_nothing_partial",
    "C70_points_exist_partial",
    "C70_points_partial",
    "C70_square_partial"
   ],
   "note": "All-or-nothing holds for every list of layers. Refuted: FourierShape (a Poly) raises RuntimeError, and Hexagon is exported with a repeated vertex."
  },
  {
   "property": "C71",
   "status": "proved",
   "theorems": [
    "C71_bar",
    "C71_progress"
   ],
   "note": "Proved for every monotone rounding that is exact on 0, 1 and the precision, hence for reals and for binary64 (Flocq example), and for the sequence of bars of a run."
  },
  {
   "property": "C72",
   "status": "partial",
   "theorems": [
    "C72_getters_refuted",
    "C72_kz_symms_refuted",
    "C72_before_run_partial",
    "C72_after_run_partial",
    "C72_own_attribute",
    "C72_no_other"
   ],
   "note": "Refuted: all result getters of PWE, EXC, POL and kz_symms of GME raise AttributeError before the first run (their 'is None' guard is never true). Exact characterisation before any run, and after a run, for all histories of reads and runs."
  },
  {
   "property": "C73",
   "status": "proved",
   "theorems": [
    "C73_k_units",
    "C73_plain"
   ],
   "note": "Path length to the point over total path length; hence 0 to 1, non-decreasing."
  },
  {
   "property": "C74",
   "status": "proved",
   "theorems": [
    "C74_light_line",
    "C74_pointwise",
    "C74_channels"
   ],
   "note": "Least frequency at which a cladding radiates; also related to the channels opened by compute_rad."
  },
  {
   "property": "C75",
   "status": "partial",
   "theorems": [
    "C75_field_name_refuted",
    "C75_components_partial",
    "C75_components_z_partial"
   ],
   "note": "component selection is as stated for get_field_xy and for the vertical sections; refuted: an unknown field name gives TypeError (None is unpacked), not ValueError."
  },
  {
   "property": "C76",
   "status": "partial",
   "theorems": [
    "C76_abs_shortcut",
    "C76_tbt_shortcut_partial",
    "C76_tbt_shortcut_refuted"
   ],
   "note": "Proved for 'abs'. Refuted for 'tbt': five equal circles on the cell diagonal are treated as a homogeneous layer."
  },
  {
   "property": "C77",
   "status": "proved",
   "theorems": [
    "C77_elements_are_overlaps"
   ],
   "note": "All four blocks equal the layer-wise overlap integrals (with the code's 1e-20 regulariser kept as the weight exp(i dl z)); hypotheses: claddings evanescent, regularised exponents nonzero inside the slab."
  },
  {
   "property": "C78",
   "status": "proved",
   "theorems": [
    "C78_E_is_D_over_eps"
   ],
   "note": "for every height; hypothesis: stored matrix is the inverse of the layer's permittivity matrix (C76 says when compute_eps_inv delivers this)."
  },
  {
   "property": "C79",
   "status": "proved",
   "theorems": [
    "C79_symmetric_structure_separates",
    "C79_inverse_symmetric"
   ],
   "note": "With delta_gx = 0 and the 1e-20 regulariser of I_alpha/J_alpha set to 0."
  },
  {
   "property": "C80",
   "status": "proved",
   "theorems": [
    "C80_phase"
   ],
   "note": "The complex phase of an eigenvector does not change its loss rates."
  },
  {
   "property": "C81",
   "status": "partial",
   "theorems": [
    "C81_channels_partial",
    "C81_on_light_line_refuted"
   ],
   "note": "True off the light line: exactly the open channels are counted. On the light line the code keeps the channel although its density of states divides by zero (refuted)."
  },
  {
   "property": "C82",
   "status": "proved",
   "theorems": [
    "C82_one_parity",
    "C82_run"
   ],
   "note": "For single matrices and for whole runs on a fresh object."
  },
  {
   "property": "C83",
   "status": "proved",
   "theorems": [
    "C83_losses_harmless",
    "C83_no_kpoints"
   ],
   "note": "For numeig > 0, at least one k-point and one layer, and a custom eps list of the right length."
  },
  {
   "property": "C84",
   "status": "proved",
   "theorems": [
    "C84_modes"
   ],
   "note": "For 'tm' the shift of 1e-10 that the code adds to gkx is set to 0 and no plane wave has k+G = 0; for 'te' any shift."
  },
  {
   "property": "C85",
   "status": "proved",
   "theorems": [
    "C85_matrix",
    "C85_eps_map"
   ],
   "note": ""
  },
  {
   "property": "C86",
   "status": "proved",
   "theorems": [
    "C86_solver_independent"
   ],
   "note": ""
  },
  {
   "property": "C87",
   "status": "proved",
   "theorems": [
    "C87_rerun",
    "C87_bad_polarisation",
    "C87_no_k"
   ],
   "note": ""
  },
  {
   "property": "C88",
   "status": "partial",
   "theorems": [
    "C88_abs_refuted",
    "C88_tbt_partial",
    "C88_abs_partial"
   ],
   "note": "Refuted for 'abs' (matrix is transposed: mirrored potential); proved for 'tbt', and for 'abs' with a centrosymmetric potential."
  },
  {
   "property": "C89",
   "status": "proved",
   "theorems": [
    "C89_solver_independent",
    "C89_rerun",
    "C89_no_k",
    "C89_cladding",
    "C89_osc_accepted",
    "C89_osc_free",
    "C89_osc_rejected"
   ],
   "note": ""
  },
  {
   "property": "C90",
   "status": "partial",
   "theorems": [
    "C90_real_refuted",
    "C90_one_well_partial"
   ],
   "note": "Refuted with two wells (a complex energy, as an effect of C57); proved for one well with real D."
  },
  {
   "property": "C91",
   "status": "partial",
   "theorems": [
    "C91_phase_refuted",
    "C91_harmless_partial"
   ],
   "note": "Refuted: D enters the diagonal block through its real part but the off-diagonal block in full, so relative phases of photonic modes change the spectrum. Proved for relative signs, and for arbitrary phases of the envelopes."
  },
  {
   "property": "C92",
   "status": "proved",
   "theorems": [
    "C92_secular"
   ],
   "note": ""
  },
  {
   "property": "C93",
   "status": "partial",
   "theorems": [
    "C93_order_refuted",
    "C93_last_well_kept_partial"
   ],
   "note": "Refuted: exchanging two wells changes the energies (an effect of C57). Proved: as long as the same well stays last, the others may come in any order; the matrices differ only by the numbering of rows and columns and have the same energies."
  },
  {
   "property": "C94",
   "status": "proved",
   "theorems": [
    "C94_no_wells",
    "C94_unequal_a",
    "C94_no_k",
    "C94_well_fails"
   ],
   "note": "Third part is a defect report: the empty k list ends in UnboundLocalError."
  },
  {
   "property": "C95",
   "status": "proved",
   "theorems": [
    "C95_bounded",
    "C95_exceeds"
   ],
   "note": ""
  },
  {
   "property": "C96",
   "status": "proved",
   "theorems": [
    "C96_history"
   ],
   "note": "scipy is any terminating strategy with the stated callback discipline."
  },
  {
   "property": "C97",
   "status": "partial",
   "theorems": [
    "C97_pairs_partial",
    "C97_documented_partial",
    "C97_refused_refuted"
   ],
   "note": "Refuted: a list of two lists is accepted. Proved: everything else."
  },
  {
   "property": "C98",
   "status": "partial",
   "theorems": [
    "C98_shape_refuted",
    "C98_vjp_partial",
    "C98_limit_partial"
   ],
   "note": "Refuted for the shape: the result is always flat. The entries are v^T J for every function affine in the argument, and tend to v^T J with the step for every function with partial derivatives J."
  },
  {
   "property": "C99",
   "status": "partial",
   "theorems": [
    "C99_no_bound_refuted",
    "C99_cell_partial"
   ],
   "note": "Refuted for cell_bound=False: UnboundLocalError, nothing is written. With cell_bound all contours lie in the cell and the outline is the cell."
  },
  {
   "property": "C100",
   "status": "proved",
   "theorems": [
    "C100_quality_factor"
   ],
   "note": "Exact real arithmetic."
  },
  {
   "property": "C101",
   "status": "partial",
   "theorems": [
    "C101_ft2square_refuted",
    "C101_never_returns_partial"
   ],
   "note": "Refuted: ft2square uses the unbound name nG1 and never returns; the exception for each input is characterised. The array claimed does not exist."
  },
  {
   "property": "C102",
   "status": "proved",
   "theorems": [
    "C102_eigenvalues",
    "C102_both"
   ],
   "note": "Eigenvalue part needs only continuity of eigenvectors and allows degeneracies; eigenvector part needs differentiable eigenvectors, distinct eigenvalues and phase convention phase_ok."
  },
  {
   "property": "C103",
   "status": "proved",
   "theorems": [
    "C103_eigsh"
   ],
   "note": "Conjugate gradient is an oracle with the contract that it solves the system of each round; eigenvectors differentiable with phase_ok."
  },
  {
   "property": "C104",
   "status": "proved",
   "theorems": [
    "C104_fsolve",
    "C104_arguments"
   ],
   "note": "Total differentiability of f at the root and a continuous branch of roots are the hypotheses; autograd's gradients dfdx and dfdy are arguments."
  },
  {
   "property": "C105",
   "status": "proved",
   "theorems": [
    "C105_sqrt",
    "C105_fmap"
   ],
   "note": "sqrt: regularised derivative with bound and relative error; fmap: chain rule with autograd's gradients as argument."
  },
  {
   "property": "C106",
   "status": "partial",
   "theorems": [
    "C106_eig_refuted",
    "C106_eig_partial"
   ],
   "note": "False: vjp_maker_eig uses _matrix_diag, _diag, _dot and inv, none of which primitives.py defines, so every call raises NameError."
  },
  {
   "property": "C107",
   "status": "proved",
   "theorems": [
    "C107_vertical_grid"
   ],
   "note": "Over every history of add_layer, add_shape and add_qw calls."
  },
  {
   "property": "C108",
   "status": "proved",
   "theorems": [
    "C108_radiation_modes",
    "C108_only_one",
    "C108_power"
   ],
   "note": "Existence, uniqueness and power conservation; (A, B) = (Y, X) as get_rad reads them. The amplitude scale of lower-case te is 1/(sqrt(eps) omega); the other spellings get 1 (C36)."
  },
  {
   "property": "C109",
   "status": "proved",
   "theorems": [
    "C109_modes_interpolated"
   ],
   "note": "wave vectors that occur twice must carry the same value; the search does not guarantee it in general"
  },
  {
   "property": "C110",
   "status": "proved",
   "theorems": [
    "C110_continuous"
   ],
   "note": "the amplitudes of AB_matrices match by C34; stated for one basis function"
  },
  {
   "property": "C111",
   "status": "proved",
   "theorems": [
    "C111_couplings_are_overlaps"
   ],
   "note": "Guided modes are assumed to decay in the claddings (C34) and the exponents of the products in the inner layers not to vanish; g at least 1e-10 (the code replaces smaller ones)."
  },
  {
   "property": "C112",
   "status": "proved",
   "theorems": [
    "C112_circle_transform",
    "C112_ellipse_transform"
   ],
   "note": "is_CInt2 is the iterated Riemann integral; J1 is its power series; scipy j1 itself is trusted to be J1. The ellipse centre is, as in the code, in rotated coordinates (see C21)."
  },
  {
   "property": "C113",
   "status": "proved",
   "theorems": [
    "C113_tables",
    "C113_matrix",
    "C113_reaches",
    "C113_nodes_ascending",
    "C113_interpolated"
   ],
   "note": "Nodes, polarisations and row contents of the tables for every successful run; interpolation under the hypothesis that no mode is lost from one node to the next (more_and_more). The root finder and the eigensolver are arguments, nothing is assumed of them."
  },
  {
   "property": "C114",
   "status": "proved",
   "theorems": [
    "C114_wave_functions"
   ],
   "note": "For every successful run with the hypotheses of C53_run: eigenvector, plane-wave sum, periodicity, orthonormality in the mean over the cell, index errors. The plotted function lacks the Bloch factor, as the statement says."
  },
  {
   "property": "C115",
   "status": "proved",
   "theorems": [
    "C115_components",
    "C115_field_name",
    "C115_E_field",
    "C115_orthonormal"
   ],
   "note": "Components, E field, periodicity and orthonormality; for tm the code divides by |k+G|, so no shifted k+G may vanish. What D is compared with curl H is C51."
  },
  {
   "property": "C116",
   "status": "proved",
   "theorems": [
    "C116_lowest",
    "C116_solver_independent",
    "C116_dense_sparse",
    "C116_one_matrix",
    "C116_tie_refuted"
   ],
   "note": "eig_sigma <= 0: lowest frequencies, independent of eigensolver and tie-breaking; eigsh = eigh at eig_sigma 0; the failure for positive eig_sigma is C116_tie_refuted"
  },
  {
   "property": "C117",
   "status": "proved",
   "theorems": [
    "C117_argsort",
    "C117_inv",
    "C117_eigh",
    "C117_eigsh",
    "C117_eig",
    "C117_brentq"
   ],
   "note": "existence proofs by classical choice; spectral theorem and fundamental theorem of algebra are proved in LinProofs2, LinProofs3"
  },
  {
   "property": "C118",
   "status": "proved",
   "theorems": [
    "C118_orthogonal",
    "C118_any_window",
    "C118_guided_modes"
   ],
   "note": "for the search with its default window, with any window, and for every entry guided_modes builds; example with two modes and all hypotheses shown"
  },
  {
   "property": "C119",
   "status": "partial",
   "theorems": [
    "C119_ellipse_refuted",
    "C119_fails_iff",
    "C119_text_partial",
    "C119_units_refuted",
    "C119_units_partial"
   ],
   "note": "refuted for crystals with an ellipse (NameError) and for the unit of the losses of the exciton solver; the exact text otherwise, and all other units"
  },
  {
   "property": "C120",
   "status": "partial",
   "theorems": [
    "C120_ellipse_refuted",
    "C120_corner_refuted",
    "C120_outlines_partial"
   ],
   "note": "refuted for ellipses and for images across a corner; exact outlines otherwise"
  },
  {
   "property": "C121",
   "status": "partial",
   "theorems": [
    "C121_xy_refuted",
    "C121_xy_sizes_refuted",
    "C121_xy_column_refuted",
    "C121_twice_refuted",
    "C121_xz_partial",
    "C121_yz_partial",
    "C121_xy_partial",
    "C121_plane",
    "C121_wavef"
   ],
   "note": "refuted in the xy-plane with periodic=False (wrong phases, unequal grid sizes or a single column raise) and for a repeated component; proved for xz, yz, for the periodic part, and in xy when ky times the grid steps are full turns or there is one row; wavef proved"
  },
  {
   "property": "C122",
   "status": "partial",
   "theorems": [
    "C122_pwe_refuted",
    "C122_lossless_refuted",
    "C122_gme_partial",
    "C122_no_cone_partial",
    "C122_quality_partial",
    "C122_unit"
   ],
   "note": "refuted for PlaneWaveExp with the defaults and for quality factors of lossless modes; proved for GuidedModeExp, and for PlaneWaveExp with cone=False, Q=False"
  },
  {
   "property": "C123",
   "status": "proved",
   "theorems": [
    "C123_xy",
    "C123_xz",
    "C123_yz",
    "C123_hexagonal"
   ],
   "note": "all three planes, every crystal reachable by adding layers and shapes; C123_hexagonal: in the hexagonal lattice, with shapes within half a period, the pictures show the shapes repeated over the whole lattice."
  },
  {
   "property": "C124",
   "status": "partial",
   "theorems": [
    "C124_titles_refuted",
    "C124_eps_ft_refuted",
    "C124_structure_partial",
    "C124_structure_no_layers",
    "C124_eps_ft_partial"
   ],
   "note": "refuted: titles off by one with cladding=True, eps_ft with given figure, title of a plane-wave layer; proved otherwise"
  },
  {
   "property": "C125",
   "status": "proved",
   "theorems": [
    "C125_edits",
    "C125_empty_mesh",
    "C125_negative_gmax",
    "C125_bad_options",
    "C125_no_layers",
    "C125_unknown_compute",
    "C125_accepted",
    "C125_field_before_run"
   ],
   "note": "Every edit that raises and its exception (iff); empty meshes; negative cut-off; unusable run options (results of the earlier run stay); no layers; unknown gmode_compute (IndexError, not refused up front); an accepted run had usable options. The class of exception is part of the statements."
  },
  {
   "property": "C126",
   "status": "partial",
   "theorems": [
    "C126_clip_refuted",
    "C126_markers_partial",
    "C126_before_run"
   ],
   "note": "refuted: Q_clip is not used; proved: markers, colours, light cone, axes, failure before run"
  },
  {
   "property": "C127",
   "status": "partial",
   "theorems": [
    "C127_scale_refuted",
    "C127_tbt_refuted",
    "C127_figure_refuted",
    "C127_potential_partial",
    "C127_layer"
   ],
   "note": "refuted: colour scale of pot_ft, truncate_g='tbt', given figure; proved: pixels of viz.eps, pixels of pot_ft for 'abs'"
  },
  {
   "property": "C128",
   "status": "proved",
   "theorems": [
    "C128_sections",
    "C128_drawn"
   ],
   "note": "grids coincide and values agree where planes meet; vertical sections drawn with Bloch factor"
  },
  {
   "property": "C129",
   "status": "partial",
   "theorems": [
    "C129_caller_refuted",
    "C129_caller_partial",
    "C129_options",
    "C129_direct"
   ],
   "note": "refuted: kpoints is written into the caller's dictionaries; proved: only that entry changes, and the options in force depend on this call alone"
  },
  {
   "property": "C130",
   "status": "proved",
   "theorems": [
    "C130_pol",
    "C130_before_run",
    "C130_pwe"
   ],
   "note": "texts before and after run, over all histories"
  },
  {
   "property": "C131",
   "status": "proved",
   "theorems": [
    "C131_translation",
    "C131_circles"
   ],
   "note": "Any layer whose shapes have moved transforms; instance: any number of circles. Hypotheses met by a hole anywhere in the square cell with nine plane waves."
  },
  {
   "property": "C132",
   "status": "proved",
   "theorems": [
    "C132_reversal"
   ],
   "note": "Needs only a real pattern and a positive invertible permittivity matrix."
  },
  {
   "property": "C133",
   "status": "partial",
   "theorems": [
    "C133_symmetry_partial",
    "C133_circles_partial",
    "C133_hexagonal_refuted"
   ],
   "note": "Refuted for the hexagonal lattice; holds whenever the operation maps the finite set of plane waves to itself (and for circles about the origin)."
  },
  {
   "property": "C134",
   "status": "partial",
   "theorems": [
    "C134_scaling_partial",
    "C134_scaling_refuted"
   ],
   "note": "Refuted for huge scale factors (absolute thresholds); holds whenever the transforms of the layers scale."
  },
  {
   "property": "C135",
   "status": "proved",
   "theorems": [
    "C135_monotone",
    "C135_raised"
   ],
   "note": "General form with a positive semidefinite difference of the permittivity matrices, and the instance in which background and all shapes are raised by the same amount."
  },
  {
   "property": "C136",
   "status": "partial",
   "theorems": [
    "C136_periodic_refuted",
    "C136_boundary_partial"
   ],
   "note": "Refuted (truncation); opposite zone boundary points proved."
  },
  {
   "property": "C137",
   "status": "proved",
   "theorems": [
    "C137_translation",
    "C137_solver"
   ],
   "note": "C137_translation: both truncations, all layers, exact and interpolated modes. The hypothesis on tbt (no imaginary part dropped by the 1e-10 test of gme.py 427-436) is part of the statement. C137_solver: the solver assumed exists."
  },
  {
   "property": "C138",
   "status": "partial",
   "theorems": [
    "C138_symmetry_partial",
    "C138_shifted_partial",
    "C138_abs_closed"
   ],
   "note": "Proved for both truncations, any number of layers, exact and interpolated modes, with the 1e-20 added in slab_modes.J_alpha/I_alpha taken as 0 (then they are the exact integrals); C147_symmetry bounds what the regulariser changes. Partial: closure of the plane waves under the symmetry is a hypothesis (proved for abs on the named lattices, false for tbt on the hexagonal one, see C133), and with the regulariser the equality holds up to a multiple of it."
  },
  {
   "property": "C139",
   "status": "proved",
   "theorems": [
    "C139_moved"
   ],
   "note": "for both truncations; the potentials are given by their Fourier coefficients (transform_of); C139_example instantiates everything for a disc"
  },
  {
   "property": "C140",
   "status": "proved",
   "theorems": [
    "C140_reversed",
    "C140_symmetry",
    "C140_units"
   ],
   "note": "k and -k, symmetries, units; C140_example: the quarter turn of a disc"
  },
  {
   "property": "C141",
   "status": "proved",
   "theorems": [
    "C141_more_waves",
    "C141_tbt_waves",
    "C141_raise",
    "C141_bounds"
   ],
   "note": "growth of the set of plane waves is a hypothesis for 'abs' and follows from gmax for 'tbt'; d is the deviation of the transform from the integral, 1e-10 pi r^3 for a circle"
  },
  {
   "property": "C142",
   "status": "partial",
   "theorems": [
    "C142_times_refuted",
    "C142_lines_partial",
    "C142_exact_partial",
    "C142_shares_partial",
    "C142_bars_partial",
    "C142_same_partial"
   ],
   "note": "False for gmode_compute='interp' (C142_times_refuted: -8 s and -40 % reported); every other line is right for every run, and all lines for 'exact'."
  },
  {
   "property": "C143",
   "status": "partial",
   "theorems": [
    "C143_silent_refuted",
    "C143_gme_partial",
    "C143_exciton_partial"
   ],
   "note": "False on a clock that has not advanced, even without verbose (C143_silent_refuted); C143_gme_partial says exactly when."
  },
  {
   "property": "C144",
   "status": "partial",
   "theorems": [
    "C144_wells_refuted",
    "C144_panels_partial",
    "C144_errors_partial"
   ],
   "note": "False for a GuidedModeExp, whose wells are not drawn (C144_wells_refuted); holds for a PhotCryst and a HopfieldPol."
  },
  {
   "property": "C145",
   "status": "partial",
   "theorems": [
    "C145_polariton_refuted",
    "C145_markers_partial"
   ],
   "note": "False for a HopfieldPol before run (AttributeError); holds otherwise."
  },
  {
   "property": "C146",
   "status": "partial",
   "theorems": [
    "C146_matrix_partial",
    "C146_spectrum_partial",
    "C146_bands_partial",
    "C146_uniform_layers",
    "C146_search",
    "C146_energy",
    "C146_exact_modes",
    "C146_exact_bands",
    "C146_short_waves_refuted"
   ],
   "note": "C146_exact_bands: for layers without shapes and gmode_compute='exact' with delta_gabs=0 every stored frequency is w sqrt(E)/2pi of a guided mode (w, E) of the slab at |G+k|, up to a multiple of the regulariser; needs an exact root finder, wave vectors that the search does not merge and that are at least 1e-4 long, and a search that never loses a mode at a later node. C146_energy bounds |E-1|. C146_short_waves_refuted: below 1e-4 the search is done at 1e-4 and the mode used is no guided mode at |G+k|. Missing: modes interpolated between nodes ('interp', delta_gabs > 0), which are not exact slab modes."
  },
  {
   "property": "C147",
   "status": "proved",
   "theorems": [
    "C147_matrix",
    "C147_bands",
    "C147_nodes",
    "C147_search",
    "C147_exact",
    "C147_symmetry",
    "C147_uniform"
   ],
   "note": "Existence of the constant, not its size. C147_search: the tables a run computes decay in the sense of the theorems, with an exact root finder, off the light lines of the inner layers (automatic for one layer) and from the wave number 1e-4 on (guided_modes never searches below). The decay is a hypothesis of C147_bands; C147_nodes, C147_search and C147_exact provide it."
  },
  {
   "property": "C148",
   "status": "proved",
   "theorems": [
    "C148_transform",
    "C148_gme",
    "C148_pwe",
    "C148_exc",
    "C148_pol",
    "C148_circles",
    "C148_polygons"
   ],
   "note": "Equality of the complete run, not only of the bands. Polygons: for a point test that moves with the polygon (matplotlib's is an argument) and lattices without reciprocal vectors below 1e-10."
  },
  {
   "property": "C149",
   "status": "partial",
   "theorems": [
    "C149_map_partial",
    "C149_reach_partial",
    "C149_map_refuted"
   ],
   "note": "Refuted: a circle drawn five cells away is missing from the map of the origin, although the solvers see it. Proved for every lattice when the images get_eps looks at include one over every covered point, and for right-angled lattices when all shapes lie within one period of the origin before and after."
  },
  {
   "property": "C150",
   "status": "partial",
   "theorems": [
    "C150_cell_partial",
    "C150_circles_partial",
    "C150_bricks_hexagonal",
    "C150_bricks_others",
    "C150_integral_unique",
    "C150_refuted"
   ],
   "note": "Refuted for overlapping shapes: the coefficients add every shape, the map takes the last one (same hole twice, average permittivity off by more than 1/10). Proved for disjoint shapes inside a rectangular unit cell, for every reciprocal vector, with explicit bounds for any number of circles; square, rectangular, hexagonal and all other lattices with a1 along x have such a cell."
  },
  {
   "property": "C151",
   "status": "partial",
   "theorems": [
    "C151_one_shape_partial",
    "C151_unit_area_partial",
    "C151_refuted"
   ],
   "note": "Refuted for two disjoint wells in a cell of area 2 (the running array is divided by the area once per shape). Proved for one shape and either sign of V, and for any number of disjoint shapes with V > 0 in cells of area 1; rectangular unit cells as in C150."
  }
 ]
}