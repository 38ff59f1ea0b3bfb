{
 "claims": [
  {
   "property": "C01",
   "status": "proved",
   "theorems": [
    "C01_distance_is_euclidean",
    "C01_unknown_system_rejected",
    "C01_distance_is_a_metric",
    "C01_distance_ignores_whole_turns",
    "C01_geodetic_foot_point_on_ellipsoid"
   ],
   "note": "All three coordinate systems; geodetic uses boule's documented prime vertical radius."
  },
  {
   "property": "C02",
   "status": "proved",
   "theorems": [
    "C02_point_gravity_is_newtonian",
    "C02_union_of_sources",
    "C02_order_irrelevant",
    "C02_linear_in_masses"
   ],
   "note": "The result is the sum of the Newtonian fields; union, order and linearity follow. choclo kernels enter by their documented closed forms."
  },
  {
   "property": "C03",
   "status": "proved",
   "theorems": [
    "C03_acceleration_is_gradient",
    "C03_tensor_is_second_derivative",
    "C03_tensor_symmetric",
    "C03_laplace",
    "C03_calls_succeed"
   ],
   "note": "First and second derivatives along every axis (Coquelicot is_derive), symmetry and Laplace."
  },
  {
   "property": "C04",
   "status": "proved",
   "theorems": [
    "C04_radial_derivative",
    "C04_potential_value",
    "C04_horizontal_components_rejected",
    "C04_only_potential_and_gz_return"
   ],
   "note": "Radial derivative, potential value, and rejection of every other field."
  },
  {
   "property": "C05",
   "status": "proved",
   "theorems": [
    "C05_schedule_independent",
    "C05_fair_schedules_complete",
    "C05_harmonica_loops_disjoint",
    "C05_accumulation_order_fixed",
    "C05_point_mass_parallel_equals_serial"
   ],
   "note": "Every interleaving of loads and stores, arbitrary number type and addition; weak memory and exceptions inside a parallel loop are not modelled."
  },
  {
   "property": "C06",
   "status": "partial",
   "theorems": [
    "C06_broadcast_rule",
    "C06_point_equal_shapes_partial",
    "C06_point_broadcast_refuted",
    "C06_point_broadcast_out_of_bounds_refuted",
    "C06_prism_broadcast_refuted"
   ],
   "note": "Refuted for the code as it is: broadcastable but unequal shapes leave zeros in the result or read out of bounds. Proved for coordinate arrays of equal shape."
  },
  {
   "property": "C07",
   "status": "partial",
   "theorems": [
    "C07_unknown_system_rejected",
    "C07_unknown_field_rejected",
    "C07_wrong_number_of_masses_rejected",
    "C07_point_arrays_not_checked_refuted"
   ],
   "note": "The stated checks are proved; the refuted theorem records that only the first coordinate of the points is compared with the masses."
  },
  {
   "property": "C08",
   "status": "proved",
   "theorems": [
    "C08_checks_accept_exactly",
    "C08_otherwise_value_error",
    "C08_same_checks_with_nan_numbers"
   ],
   "note": "For real (non-NaN) boundaries; NaN is C68."
  },
  {
   "property": "C09",
   "status": "proved",
   "theorems": [
    "C09_whole_turns",
    "C09_same_region"
   ],
   "note": "Whole turns, untouched rows, same eastward arc; seam cases that are refused are C69."
  },
  {
   "property": "C10",
   "status": "proved",
   "theorems": [
    "C10_point_inside_is_an_error",
    "C10_tesseroid_gravity_rejects_points_inside"
   ],
   "note": "Both directions for the check, and the error at the level of tesseroid_gravity."
  },
  {
   "property": "C11",
   "status": "proved",
   "theorems": [
    "C11_small_tesseroids_tile",
    "C11_independent_of_buffer_contents"
   ],
   "note": "Proved for the array-based code by refinement to a list machine; independent of the initial buffer contents."
  },
  {
   "property": "C12",
   "status": "proved",
   "theorems": [
    "C12_distance_size_criterion",
    "C12_radial_discretization_off"
   ],
   "note": "Great-circle sizes, as the code defines them; see C66 for the true extent."
  },
  {
   "property": "C13",
   "status": "proved",
   "theorems": [
    "C13_terminates_within_buffers",
    "C13_only_overflow"
   ],
   "note": "Never OutOfFuel or OutOfBounds; only OverflowError for tesseroids narrower than a turn. The ZeroDivisionError outcome (numba's default error model) only occurs for degenerate tesseroids, see C67."
  },
  {
   "property": "C14",
   "status": "proved",
   "theorems": [
    "C14_field_of_point_masses_inside",
    "C14_quadrature_is_eight_point_masses",
    "C14_total_mass",
    "C14_masses_positive"
   ],
   "note": "leggauss(2) nodes +-1/sqrt 3 and weights 1 are taken from its documentation."
  },
  {
   "property": "C15",
   "status": "proved",
   "theorems": [
    "C15_union_of_tesseroids",
    "C15_union_returns_only_if_parts_do",
    "C15_linear_in_density",
    "C15_order_irrelevant",
    "C15_null_tesseroids_removable",
    "C15_null_tesseroids_harmless"
   ],
   "note": "Union, linearity, order, null tesseroids; through tesseroid_gravity with all its checks."
  },
  {
   "property": "C16",
   "status": "proved",
   "theorems": [
    "C16_pieces_are_a_pile_of_layers",
    "C16_every_tesseroid_is_discretised",
    "C16_every_piece_meets_the_criterion",
    "C16_discretisation_ends"
   ],
   "note": "Proved for lists of tesseroids: the output is the concatenation of one pile per tesseroid, and each pile tiles its tesseroid."
  },
  {
   "property": "C17",
   "status": "partial",
   "theorems": [
    "C17_constant_function",
    "C17_null_tesseroid_refuted"
   ],
   "note": "Proved for tesseroids with volume and nonzero constants; a tesseroid without thickness makes the density-function path fail (refuted theorem)."
  },
  {
   "property": "C18",
   "status": "partial",
   "theorems": [
    "C18_accepts_exactly_regular_axes",
    "C18_one_cell_per_node",
    "C18_no_cell_outside",
    "C18_cells_centred_on_nodes",
    "C18_cells_cover_the_boundaries",
    "C18_cells_do_not_overlap",
    "C18_neighbours_share_boundaries",
    "C18_gap_bounded",
    "C18_uneven_axis_leaves_gap_refuted",
    "C18_descending_axis_inverts_cells_refuted"
   ],
   "note": "Exact tiling for evenly spaced ascending axes; for axes accepted within numpy's tolerance neighbours share boundaries up to that tolerance. Refuted: an uneven accepted axis leaves a gap, and a descending axis is accepted but gives inverted cells."
  },
  {
   "property": "C19",
   "status": "partial",
   "theorems": [
    "C19_top_and_bottom",
    "C19_scalar_reference",
    "C19_nan_stays",
    "C19_shapes_checked",
    "C19_update_keeps_the_rest",
    "C19_integer_surface_refuted"
   ],
   "note": "Max/min for every finite cell whose value the array type can store, NaN kept, shapes checked. Refuted for integer surfaces with fractional references (truncation)."
  },
  {
   "property": "C20",
   "status": "partial",
   "theorems": [
    "C20_rejects_exactly_full_turns",
    "C20_accepted_layers_do_not_overlap",
    "C20_overlap_is_more_than_a_turn",
    "C20_full_globe_rejected_refuted",
    "C20_descending_overlap_accepted_refuted"
   ],
   "note": "The check rejects exactly n*spacing >= 360; overlap is n*spacing > 360, so accepted layers never overlap. Refuted both ways at the edge: the exact full globe is rejected; descending overlapping longitudes are accepted."
  },
  {
   "property": "C21",
   "status": "partial",
   "theorems": [
    "C21_sum_over_the_cells",
    "C21_equals_prism_gravity",
    "C21_uses_exactly_these_prisms",
    "C21_missing_density",
    "C21_descending_easting_refuted"
   ],
   "note": "Kernel sums over exactly the described prisms and equality with prism_gravity; serial schedule (C05 covers the parallel one). Refuted for descending easting: the sign of the field flips."
  },
  {
   "property": "C22",
   "status": "proved",
   "theorems": [
    "C22_evaluates_tesseroid_gravity",
    "C22_uses_exactly_these_tesseroids",
    "C22_missing_density"
   ],
   "note": "Equality with tesseroid_gravity on exactly the described tesseroids, all options passed through."
  },
  {
   "property": "C23",
   "status": "proved",
   "theorems": [
    "C23_accepts_exactly_valid_prisms",
    "C23_rejects_with_valueerror",
    "C23_gravity_rejects",
    "C23_gravity_error",
    "C23_magnetic_rejects",
    "C23_finite_boundaries"
   ],
   "note": "Acceptance is exactly validity; both prism functions reject otherwise."
  },
  {
   "property": "C24",
   "status": "proved",
   "theorems": [
    "C24_warns_exactly_at_singular_points",
    "C24_disabled_checks_do_not_warn"
   ],
   "note": "Equivalence with the geometric definition of the singular edges, for all six components; no warning for the other fields or with checks disabled."
  },
  {
   "property": "C25",
   "status": "proved",
   "theorems": [
    "C25_keeps_exactly_the_others",
    "C25_null_prisms_do_not_change_the_field",
    "C25_magnetic_keeps_exactly_the_others"
   ],
   "note": "Exactly the prisms with volume and property are kept, in order; removing them does not change gravity."
  },
  {
   "property": "C26",
   "status": "proved",
   "theorems": [
    "C26_sum_over_prisms",
    "C26_union_of_prisms",
    "C26_order_irrelevant",
    "C26_linear_in_density"
   ],
   "note": "choclo kernels are arguments: linearity and vanishing without volume are hypotheses, met by vertex sums."
  },
  {
   "property": "C27",
   "status": "proved",
   "theorems": [
    "C27_prism_vector_is_components",
    "C27_dipole_vector_is_components",
    "C27_prism_component_value",
    "C27_prism_linear_in_magnetization",
    "C27_dipole_linear_in_moments"
   ],
   "note": "Equality of the calls including errors; prism kernels are arguments (agreement of magnetic_field with the components is a hypothesis), dipole kernels are modelled."
  },
  {
   "property": "C28",
   "status": "proved",
   "theorems": [
    "C28_vertices_are_the_corners",
    "C28_cells_point_to_their_prism",
    "C28_one_cell_per_prism"
   ],
   "note": "Any content of the uninitialised array; cells index their own corners."
  },
  {
   "property": "C29",
   "status": "proved",
   "theorems": [
    "C29_rotation_is_rigid",
    "C29_positive_pitch_lifts_easting_axis",
    "C29_directions",
    "C29_sorted_frame"
   ],
   "note": "Rotation model follows scipy's documented intrinsic ZYX angles. The sorted frame is proved for every ordering with ties."
  },
  {
   "property": "C30",
   "status": "proved",
   "theorems": [
    "C30_lambda_is_confocal",
    "C30_unsorted_rejected"
   ],
   "note": "All three branches, including the trigonometric root of the triaxial cubic."
  },
  {
   "property": "C31",
   "status": "partial",
   "theorems": [
    "C31_integrals",
    "C31_derivatives",
    "C31_nearly_equal_axes_partial",
    "C31_nearly_equal_axes_refuted",
    "C31_sphere_rejected"
   ],
   "note": "Proved for semi-axes that are equal or differ by at least the code's tolerance 1e-5. Closer semi-axes are treated as equal by the code: the integrals are then those of a nearby ellipsoid (_partial) and not of the ellipsoid itself (_refuted)."
  },
  {
   "property": "C32",
   "status": "partial",
   "theorems": [
    "C32_gravity_field",
    "C32_sphere_is_point_mass",
    "C32_almost_sphere_refuted",
    "C32_nearly_equal_axes_refuted",
    "C32_nearly_equal_axes_partial"
   ],
   "note": "Proved for semi-axes that are equal or differ by at least the tolerance 1e-5: linear inside with divergence -4 pi G rho, continuous everywhere, curl- and divergence-free outside; spheres are point masses outside. Refuted for semi-axes closer than the tolerance: the field of an almost-sphere jumps at its surface and an almost-prolate body has the divergence of another density; the partial theorem bounds that error by 2e-5."
  },
  {
   "property": "C33",
   "status": "partial",
   "theorems": [
    "C33_external_tensor",
    "C33_external_tensor_refuted",
    "C33_internal_factors",
    "C33_internal_factors_are_integrals"
   ],
   "note": "Internal factors for all sorted semi-axes. External tensor symmetric and traceless when the semi-axes are equal or differ by the tolerance; refuted for almost-prolate bodies, where the trace is never zero."
  },
  {
   "property": "C34",
   "status": "partial",
   "theorems": [
    "C34_isotropic",
    "C34_aligned_tensor",
    "C34_anisotropic_partial",
    "C34_anisotropic_refuted",
    "C34_isotropic_field_computed"
   ],
   "note": "Proved for isotropic susceptibility above -1 and for tensors diagonal along the semi-axes. For a general tensor the code solves (I + N chi) M = Mr + chi H0, with the product in the other order than its documentation; refuted with a symmetric tensor."
  },
  {
   "property": "C35",
   "status": "partial",
   "theorems": [
    "C35_failed_assignment_unchanged",
    "C35_successful_assignment",
    "C35_constructor",
    "C35_well_typed",
    "C35_positive_axes_partial",
    "C35_bodies_have_positive_axes",
    "C35_nonpositive_rejected",
    "C35_positive_accepted",
    "C35_nan_axis_refuted",
    "C35_body_as_given",
    "C35_no_body_with_nan"
   ],
   "note": "Failed assignments leave the object unchanged, successful ones change one attribute, properties stay well typed through every history, and every object holding finite numbers has positive semi-axes. Refuted as stated: NaN is accepted as a semi-axis."
  },
  {
   "property": "C36",
   "status": "proved",
   "theorems": [
    "C36_gravity_superposition",
    "C36_gravity_order",
    "C36_magnetic_superposition",
    "C36_magnetic_order",
    "C36_surface_points",
    "C36_surface_size"
   ],
   "note": "Superposition and order for gravity and magnetics, bodies without properties contribute nothing and cause one warning each, surface points lie on the surface."
  },
  {
   "property": "C37",
   "status": "partial",
   "theorems": [
    "C37_angles_to_vector_and_back",
    "C37_vector_to_angles_and_back",
    "C37_intensity_is_the_norm",
    "C37_angles_in_range",
    "C37_vertical_loses_declination_refuted"
   ],
   "note": "Round trips in both directions for all vectors and for all non-vertical directions; norm equals the intensity; angle ranges. Declination is not recoverable at inclination +-90 (refuted form for that boundary)."
  },
  {
   "property": "C38",
   "status": "proved",
   "theorems": [
    "C38_projection",
    "C38_never_exceeds_the_magnitude",
    "C38_linear",
    "C38_first_order_change_of_intensity"
   ],
   "note": "Projection onto the unit vector, linearity, Cauchy-Schwarz bound, and first order change of the total intensity."
  },
  {
   "property": "C39",
   "status": "proved",
   "theorems": [
    "C39_responses",
    "C39_complementary",
    "C39_no_amplification",
    "C39_zero_wavelength"
   ],
   "note": "Any padding: the two grids add to the input; without padding neither increases the sum of squares (Parseval). The DFT is modelled and inverted in FourierProofs.v; xrft enters by its documented behaviour."
  },
  {
   "property": "C40",
   "status": "proved",
   "theorems": [
    "C40_continuations_add",
    "C40_zero_displacement",
    "C40_no_amplification",
    "C40_sampled_field"
   ],
   "note": "Composition and energy without padding; identity for any padding; exact on every harmonic field of resolved plane waves."
  },
  {
   "property": "C41",
   "status": "partial",
   "theorems": [
    "C41_upward_orders_add",
    "C41_easting_orders_add_partial",
    "C41_northing_orders_add_partial",
    "C41_laplace",
    "C41_rate_of_continuation",
    "C41_rate_of_continuation_at_every_level",
    "C41_sampled_field",
    "C41_easting_orders_add_refuted"
   ],
   "note": "Upward orders compose, Laplace holds for any padding, the derivative grids of resolved harmonic fields are the true derivatives. Horizontal orders compose for an even first order or odd sizes; refuted for even sizes (Nyquist wave)."
  },
  {
   "property": "C42",
   "status": "partial",
   "theorems": [
    "C42_real_filters",
    "C42_odd_sizes",
    "C42_even_size_refuted"
   ],
   "note": "Exactly real for the even responses on every size and for horizontal derivatives and reduction to the pole on odd sizes; refuted for first derivatives on even sizes."
  },
  {
   "property": "C43",
   "status": "partial",
   "theorems": [
    "C43_at_the_pole",
    "C43_sampled_field",
    "C43_default_angles_refuted",
    "C43_equator_refuted"
   ],
   "note": "Identity minus a constant at the pole (the mean without padding); exact on resolved total field anomalies for all non-horizontal directions. Refuted: default magnetisation angles raise TypeError; at the magnetic equator the whole grid is NaN."
  },
  {
   "property": "C44",
   "status": "partial",
   "theorems": [
    "C44_accepts_exactly",
    "C44_rejects",
    "C44_keeps_nodes",
    "C44_regular_accepted",
    "C44_pad_kwargs_refuted",
    "C44_decreasing_coordinates_refuted"
   ],
   "note": "Exact acceptance without padding, acceptance of regular grids with padding, coordinates kept. Refuted: caller's pad_kwargs are modified and leak into the next call; grids with decreasing coordinates come back flipped (given xrft's documented reversal)."
  },
  {
   "property": "C45",
   "status": "proved",
   "theorems": [
    "C45_total_gradient_amplitude",
    "C45_tilt_angle",
    "C45_rejects"
   ],
   "note": "For every regular grid, any padding, no second coordinate on a dimension; missing values rejected."
  },
  {
   "property": "C46",
   "status": "proved",
   "theorems": [
    "C46_plate_formula",
    "C46_nan_and_length",
    "C46_infinite_slab",
    "C46_continuous_in_height"
   ],
   "note": "Per element formula, NaN propagation, continuity at sea level, and the plate as the limit of cylinders of growing radius."
  },
  {
   "property": "C47",
   "status": "partial",
   "theorems": [
    "C47_columns_balance",
    "C47_only_this_depth_balances",
    "C47_never_fails_without_integer_arrays",
    "C47_integer_arrays_refuted",
    "C47_layer_order_refuted"
   ],
   "note": "Mass balance of every column for any number of layers, uniqueness of the balancing depth, no failure without integer arrays; integer thickness arrays raise TypeError, also when a layer of floats follows (refuted forms)."
  },
  {
   "property": "C48",
   "status": "proved",
   "theorems": [
    "C48_minimises_misfit",
    "C48_succeeds",
    "C48_recovers_exact_source",
    "C48_finds_point_mass",
    "C48_finds_dipole",
    "C48_covariance",
    "C48_errors"
   ],
   "note": "Unique least-squares minimiser, success iff the derivatives and the constant are independent, exact recovery, end-to-end recovery of point masses (any field of point_gravity) and dipoles, covariance, errors. Real arithmetic; scipy.linalg.inv by cofactors."
  },
  {
   "property": "C49",
   "status": "partial",
   "theorems": [
    "C49_several_indices_keep_the_best",
    "C49_several_indices_succeed",
    "C49_recovers_exact_source",
    "C49_finds_point_mass",
    "C49_constructor",
    "C49_errors",
    "C49_no_iterations_refuted",
    "C49_misfit_missing_for_several_indices_refuted"
   ],
   "note": "First smallest misfit among the single fits, success, exact recovery, errors. Refuted: max_iterations=0 raises UnboundLocalError; data_misfit_ is not set when several indices are given."
  },
  {
   "property": "C50",
   "status": "partial",
   "theorems": [
    "C50_header_fields",
    "C50_floats",
    "C50_special_floats",
    "C50_rejections",
    "C50_sign_flag_refuted",
    "C50_unbound_data_type_refuted"
   ],
   "note": "Every header field decodes as documented (integers, IEEE floats including subnormal numbers, infinities and NaN); unknown ordering, element size, colour grids and truncated headers are refused. Refuted: with 8-byte elements the sign flag is ignored; other unknown sign flags raise UnboundLocalError."
  },
  {
   "property": "C51",
   "status": "proved",
   "theorems": [
    "C51_elements_at_nodes",
    "C51_float_dummies",
    "C51_wrong_size"
   ],
   "note": "For every element type, ordering, rotation and content, uncompressed files."
  },
  {
   "property": "C52",
   "status": "proved",
   "theorems": [
    "C52_slices",
    "C52_blocks",
    "C52_round_trip",
    "C52_compressed_file"
   ],
   "note": "zlib is an argument; blocks may be anywhere in the file; writer/reader round trip; compressed files load as their uncompressed contents."
  },
  {
   "property": "C53",
   "status": "proved",
   "theorems": [
    "C53_rotated_coordinates"
   ],
   "note": "Origin, pairwise distances, inverse rotation, agreement with unrotated coordinates at angle zero."
  },
  {
   "property": "C54",
   "status": "partial",
   "theorems": [
    "C54_values_at_own_coordinates",
    "C54_accepted_files_agree",
    "C54_header",
    "C54_scattered_points_refuted",
    "C54_usecols_units_refuted"
   ],
   "note": "Text-level header parsing; numpy.loadtxt, int and float are arguments. Refuted: points off the grid are accepted and moved; usecols leaves the units of all columns."
  },
  {
   "property": "C55",
   "status": "partial",
   "theorems": [
    "C55_unnormalised_table",
    "C55_schmidt_table",
    "C55_full_table",
    "C55_degree_zero_refuted"
   ],
   "note": "Tables equal Rodrigues' formula (Coquelicot derivatives of (x^2-1)^n) times the documented factors for every degree and order. C55_degree_zero_refuted: with max_degree = 0 the normalised routines write outside the array."
  },
  {
   "property": "C56",
   "status": "proved",
   "theorems": [
    "C56_unnormalised_derivatives",
    "C56_schmidt_derivatives",
    "C56_full_derivatives",
    "C56_colat_is_legendre"
   ],
   "note": "k applications give the k-th colatitude derivative for every k; poles included through the smooth form sin^m. Each application writes to a separate array (in-place use is not modelled)."
  },
  {
   "property": "C57",
   "status": "proved",
   "theorems": [
    "C57_schmidt_squares_add_to_one"
   ],
   "note": "Proved by showing that the sum of squares has zero derivative in colatitude and equals one at the pole."
  },
  {
   "property": "C58",
   "status": "proved",
   "theorems": [
    "C58_calendar",
    "C58_epoch_dates",
    "C58_linear_between_epochs",
    "C58_after_the_last_epoch",
    "C58_continuous_in_time",
    "C58_rejected_dates",
    "C58_unused_entries_are_zero"
   ],
   "note": "Exact calendar arithmetic; files with an epoch every five years. The Lipschitz bound gives continuity across epochs."
  },
  {
   "property": "C59",
   "status": "partial",
   "theorems": [
    "C59_minus_gradient",
    "C59_grid_equals_points",
    "C59_rotation",
    "C59_predict_equals_grid",
    "C59_varying_height_refuted"
   ],
   "note": "Minus gradient where the absolute value of sin(colatitude) is at least 1e-10; grid and predict agree for heights constant along parallels; refuted for heights varying along a parallel (grid uses the colatitude of the first column)."
  },
  {
   "property": "C60",
   "status": "partial",
   "theorems": [
    "C60_north_and_up_partial",
    "C60_east_at_the_pole_refuted",
    "C60_pole_depends_on_longitude_refuted"
   ],
   "note": "The northward and radial components are the limits; the eastward component is set to zero at the poles, which is refuted for an equatorial dipole."
  },
  {
   "property": "C61",
   "status": "proved",
   "theorems": [
    "C61_prediction_is_sum_over_distance",
    "C61_prediction_is_sum_over_distance_sph",
    "C61_prediction_is_jacobian_times_coefficients",
    "C61_prediction_is_jacobian_times_coefficients_sph",
    "C61_prediction_before_fit_refused",
    "C61_mismatched_inputs_refused",
    "C61_fit_minimises_the_misfit",
    "C61_fit_minimises_the_misfit_sph",
    "C61_exact_fit_is_found"
   ],
   "note": "least_squares is external; the fit theorems assume that it minimises its documented objective for the matrix it is given. A source at an observation point makes the compiled kernel raise ZeroDivisionError. Double precision arithmetic is exact in the model."
  },
  {
   "property": "C62",
   "status": "proved",
   "theorems": [
    "C62_sources_below_the_data",
    "C62_sources_below_the_data_gb",
    "C62_sources_below_the_data_sph",
    "C62_custom_points_are_used",
    "C62_custom_points_are_used_gb",
    "C62_custom_points_are_used_sph",
    "C62_rejected_depths",
    "C62_rejected_windows"
   ],
   "note": "Block averages and neighbour distances are external functions."
  },
  {
   "property": "C63",
   "status": "partial",
   "theorems": [
    "C63_estimate_is_the_jacobian_partial",
    "C63_estimate_is_the_largest_jacobian_gb_partial",
    "C63_estimate_is_the_jacobian_sph_partial",
    "C63_custom_points_refuted",
    "C63_single_precision_estimate_is_half"
   ],
   "note": "Proved without custom points and in double precision, for gradient boosting with any two shuffles. Refuted with custom points for the Cartesian class, whose estimate ignores them. For single precision longitudes the spherical estimate is half of the matrix."
  },
  {
   "property": "C64",
   "status": "proved",
   "theorems": [
    "C64_residue_after_every_window",
    "C64_boosting_succeeds",
    "C64_window_misfit_does_not_increase",
    "C64_last_error_is_the_misfit",
    "C64_single_window_is_the_plain_fit",
    "C64_shuffling_permutes_the_windows"
   ],
   "note": "For every window list, order and least_squares. The windows come from an external function whose indices are assumed to be distinct positions of the arrays."
  },
  {
   "property": "C65",
   "status": "partial",
   "theorems": [
    "C65_integer_longitudes_give_integers",
    "C65_integer_coordinates_refuted"
   ],
   "note": "Refuted. The result array takes the type of the longitudes, so integer longitudes truncate the prediction after every source."
  },
  {
   "property": "C66",
   "status": "partial",
   "theorems": [
    "C66_extent_along_parallel_partial",
    "C66_wide_tesseroid_unsplit_refuted"
   ],
   "note": "True for tesseroids up to 180 degrees wide; refuted for a 270 degree wide one, which is never split in longitude."
  },
  {
   "property": "C67",
   "status": "partial",
   "theorems": [
    "C67_full_turn_always_fails",
    "C67_accepted_tesseroids_computed_refuted"
   ],
   "note": "C13 gives it for tesseroids narrower than a turn; refuted for every full-turn tesseroid, whose great-circle longitudinal size is zero."
  },
  {
   "property": "C68",
   "status": "partial",
   "theorems": [
    "C68_nan_rejected_refuted"
   ],
   "note": "All comparisons with NaN are false, so an all-NaN tesseroid is accepted."
  },
  {
   "property": "C69",
   "status": "partial",
   "theorems": [
    "C69_antimeridian_accepted_refuted"
   ],
   "note": "Refuted: 170 to -170 is refused (the move goes to [-180,180) whatever the arc)."
  },
  {
   "property": "C70",
   "status": "proved",
   "theorems": [
    "C70_field_of_point_masses"
   ],
   "note": "Same point-mass form as C14, for every density function and any bounded search."
  },
  {
   "property": "C71",
   "status": "proved",
   "theorems": [
    "C71_dipole_field_value",
    "C71_minus_gradient_of_potential",
    "C71_no_divergence"
   ],
   "note": "Value, gradient and divergence theorems for the documented dipole kernels."
  },
  {
   "property": "C72",
   "status": "proved",
   "theorems": [
    "C72_cutting_a_prism"
   ],
   "note": "For kernels of the vertex-sum form choclo uses for potential and acceleration."
  },
  {
   "property": "C73",
   "status": "partial",
   "theorems": [
    "C73_density_length_checked",
    "C73_dipole_arrays_not_checked_refuted"
   ],
   "note": "Proved for densities; for dipoles only eastings and the first moment component are compared (refuted theorem)."
  },
  {
   "property": "C74",
   "status": "partial",
   "theorems": [
    "C74_nan_boundary_refuted"
   ],
   "note": "Refuted: comparisons with NaN are false."
  },
  {
   "property": "C75",
   "status": "proved",
   "theorems": [
    "C75_pyvista_cells_and_properties"
   ],
   "note": "Boundaries and data variables of the kept cells; PyVista itself is external."
  },
  {
   "property": "C76",
   "status": "proved",
   "theorems": [
    "C76_easting_exact",
    "C76_northing_exact",
    "C76_easting_border",
    "C76_easting_local",
    "C76_repeated_easting",
    "C76_errors"
   ],
   "note": "Even or uneven spacing; NaN locality included."
  },
  {
   "property": "C77",
   "status": "partial",
   "theorems": [
    "C77_step_satisfies_linearised_equations",
    "C77_step_is_optimal",
    "C77_step_exists",
    "C77_step_errors",
    "C77_fit_is_a_run",
    "C77_merit_as_documented_refuted"
   ],
   "note": "The fitted estimate is shown to be the end of a run of optimal moves (each the constrained least-squares update) from the deconvolution estimate and 0.9 times the data, with the stopping rule, the warning, the misfit and the covariance of the code."
  },
  {
   "property": "C78",
   "status": "proved",
   "theorems": [
    "C78_every_line_is_stored"
   ],
   "note": "Python's split, int and float are arguments of the model."
  },
  {
   "property": "C79",
   "status": "partial",
   "theorems": [
    "C79_estimate_keeps_predictions",
    "C79_gb_estimate_moves_the_sources_refuted"
   ],
   "note": "Proved for the Cartesian class. Refuted for gradient boosting, which overwrites the fitted sources."
  },
  {
   "property": "C80",
   "status": "proved",
   "theorems": [
    "C80_grid_keywords",
    "C80_profile_keywords"
   ],
   "note": "The keyword names are modelled; the call of verde's method is external."
  },
  {
   "property": "C81",
   "status": "proved",
   "theorems": [
    "C81_poisson_relation"
   ],
   "note": "Holds for every susceptibility for which the call returns; semi-axes equal or different by at least the tolerance."
  },
  {
   "property": "C82",
   "status": "proved",
   "theorems": [
    "C82_boundary_conditions"
   ],
   "note": "Holds for every susceptibility for which the call returns; the equation of the magnetisation for isotropic or absent susceptibility."
  },
  {
   "property": "C83",
   "status": "partial",
   "theorems": [
    "C83_calls_are_independent",
    "C83_last_assignment_counts",
    "C83_date_after_use_refuted",
    "C83_degree_after_use_refuted",
    "C83_time_zone_refuted",
    "C83_degree_beyond_the_file"
   ],
   "note": "Objects as state machines over all histories of requests and assignments. Proved: requests (even failed ones) and changes of min_degree never influence later answers; a maximum degree beyond the file raises IndexError. Refuted: the date assigned after the first use is ignored; a maximum degree raised after the first use makes the compiled loop write out of bounds; dates with a time zone raise TypeError."
  },
  {
   "property": "C84",
   "status": "partial",
   "theorems": [
    "C84_predict",
    "C84_scalar_height",
    "C84_scalar_latitude",
    "C84_scalar_longitude_refuted",
    "C84_one_element_refuted"
   ],
   "note": "Proved from the coefficient file to the arrays for every shape with other than one element, and for a scalar height or latitude. Refuted: coordinate arrays with one element give floats, not arrays of their shape; one longitude with many latitudes broadcasts but raises ValueError. At the poles see C60."
  },
  {
   "property": "C85",
   "status": "proved",
   "theorems": [
    "C85_full_orthonormal",
    "C85_schmidt_orthogonal",
    "C85_plain_orthogonal"
   ],
   "note": "Orthogonality and mean squares are proved for the tables computed by the three routines (induction on degree and order for the integrals over the sine of the latitude, integrals of products of waves over the longitude). The integral is the Riemann integral over longitude of the Riemann integral over the sine of the latitude."
  },
  {
   "property": "C86",
   "status": "proved",
   "theorems": [
    "C86_no_sources"
   ],
   "note": "The components of the field are differentiated term by term; the divergence vanishes by Legendre's equation, which is derived for the functions in the tables. The region closer than 1e-10 to the axis, where the code sets the east component to zero, is left out."
  },
  {
   "property": "C87",
   "status": "proved",
   "theorems": [
    "C87_linear",
    "C87_translation",
    "C87_roll",
    "C87_exchange"
   ],
   "note": "Linear combinations for any accepted coordinates (increasing or decreasing); translation and exchange for regular grids with the default or no padding; rolling without padding. Other padding modes of xrft are external functions in the model and left out."
  },
  {
   "property": "C88",
   "status": "proved",
   "theorems": [
    "C88_point_sources",
    "C88_tesseroids",
    "C88_tesseroids_of_variable_density",
    "C88_without_checks"
   ],
   "note": "Tesseroids whose two meridians coincide must keep the difference of the two numbers (360 to 0 is an empty cell, 0 to 360 the whole shell). Real arithmetic; in floats the values agree up to rounding."
  },
  {
   "property": "C89",
   "status": "proved",
   "theorems": [
    "C89_predictions_are_potentials",
    "C89_predictions_are_potentials_sph",
    "C89_predictions_are_harmonic",
    "C89_predictions_vanish_upwards",
    "C89_fit_moves_with_the_survey",
    "C89_gb_fit_moves_with_the_survey",
    "C89_predictions_move_with_the_sources",
    "C89_spherical_fit_turns"
   ],
   "note": "Predictions equal point_gravity potentials, are harmonic, bounded by height, and move with the survey through fit, gradient boosting and predict; arrays of float64; block averages, neighbour distances and rolling windows (verde) are arguments assumed to move with the data."
  },
  {
   "property": "C90",
   "status": "proved",
   "theorems": [
    "C90_gravity_moves_with_the_bodies",
    "C90_magnetic_moves_with_the_bodies",
    "C90_only_the_solid_matters",
    "C90_turn_about_the_vertical",
    "C90_order_of_the_axes"
   ],
   "note": "Rigid motions are any orthogonal matrix plus a shift. The semi-axes only need to be positive; nearly equal semi-axes (treated as spheres or spheroids by the code) are covered. Magnetic properties have to be given alike (None stays None) so that the numbers of warnings agree."
  },
  {
   "property": "C91",
   "status": "proved",
   "theorems": [
    "C91_point_mass",
    "C91_far_limit",
    "C91_point_dipole",
    "C91_almost_sphere_refuted"
   ],
   "note": "Statement scoped to bodies whose shape the tolerance decides; C91_almost_sphere_refuted shows that the scope is needed."
  },
  {
   "property": "C92",
   "status": "partial",
   "theorems": [
    "C92_rounding_to_53_bits",
    "C92_without_rounding",
    "C92_cartesian_distance",
    "C92_predictions",
    "C92_bouguer",
    "C92_spherical_distance_partial",
    "C92_spherical_distance_far",
    "C92_spherical_distance_refuted"
   ],
   "note": "Distance bounds, predictions and Bouguer correction proved for every rounding of relative error u, and round to nearest of 53 bits is shown to be one. Partial: the spherical distance has an absolute error bound only (C92_spherical_distance_partial); that distinct points have a nonzero computed distance is refuted. That cos, sin and constants are rounded with relative error u is a hypothesis on libm; exponents are unbounded."
  },
  {
   "property": "C93",
   "status": "proved",
   "theorems": [
    "C93_level_survey_is_reproduced",
    "C93_level_survey_is_reproduced_gb",
    "C93_level_survey_is_reproduced_sph",
    "C93_level_survey_is_fitted",
    "C93_level_survey_is_fitted_sph",
    "C93_level_coefficients_are_unique",
    "C93_level_coefficients_are_unique_sph",
    "C93_damped_coefficients_are_unique",
    "C93_rugged_survey_may_not_be_reproduced"
   ],
   "note": "The kernel 1/sqrt(|x-y|^2 + c), c > 0, is shown to be strictly positive definite on distinct points of a plane or a sphere, so the normal equations have one solution and it reproduces the data. Without damping a survey that is not level need not be reproduced (C93_rugged_survey_may_not_be_reproduced)."
  },
  {
   "property": "C94",
   "status": "proved",
   "theorems": [
    "C94_region_is_the_smallest",
    "C94_every_datum_meets_the_source_below",
    "C94_all_data_and_sources_are_used",
    "C94_windows_pair_neighbours",
    "C94_far_sources_are_never_fitted"
   ],
   "note": "rolling_window is an argument; that its squares cover the region and that their centres depend on region, size and overlap only are hypotheses (met by an example in the file)."
  },
  {
   "property": "C95",
   "status": "proved",
   "theorems": [
    "C95_gravity_measures_the_mass",
    "C95_gravity_measures_the_mass_below",
    "C95_gravity_is_integrable",
    "C95_dipoles_have_no_flux",
    "C95_bouguer_correction_is_an_endless_plate"
   ],
   "note": "Iterated Riemann integrals (Coquelicot) with explicit antiderivatives; the limit is taken over centred squares."
  },
  {
   "property": "C96",
   "status": "proved",
   "theorems": [
    "C96_predictions_are_linear",
    "C96_fitted_values_are_linear",
    "C96_predictions_are_linear_sph",
    "C96_predictions_are_linear_gb",
    "C96_order_does_not_matter",
    "C96_order_of_the_survey",
    "C96_misfit_is_bounded",
    "C96_damping_trades"
   ],
   "note": "The solver is an argument; that it returns a minimiser of verde's objective for every data vector is a hypothesis (met by an explicit solver in the example). Linearity is proved through the vanishing slope at a minimum and the uniqueness of the damped minimum."
  },
  {
   "property": "C97",
   "status": "proved",
   "theorems": [
    "C97_constant",
    "C97_level",
    "C97_mean",
    "C97_total_gradient_amplitude",
    "C97_tilt_angle"
   ],
   "note": "Padding in other modes than \"edge\" is an argument of the model and not covered by C97_constant and C97_level. C97_tilt_angle and C97_total_gradient_amplitude compare values that may be missing."
  },
  {
   "property": "C98",
   "status": "proved",
   "theorems": [
    "C98_buffers_suffice",
    "C98_gravity_returns",
    "C98_clear_above",
    "C98_pieces_meet_the_ratio",
    "C98_never_at_its_points",
    "C98_no_acceleration_on_the_surface"
   ],
   "note": "C98_never_at_its_points and C98_no_acceleration_on_the_surface say where the code cannot return; sixteen halvings are sufficient, not necessary"
  },
  {
   "property": "C99",
   "status": "proved",
   "theorems": [
    "C99_point_potential",
    "C99_point_gravity",
    "C99_tesseroid_potential",
    "C99_tesseroid_gravity",
    "C99_more_density"
   ],
   "note": "Bounds over all mass arrangements; up to 1/20 of the mass of a tesseroid is lost by the two-node quadrature over latitude."
  },
  {
   "property": "C100",
   "status": "proved",
   "theorems": [
    "C100_sum_of_squares",
    "C100_values",
    "C100_noise",
    "C100_continuation_decays"
   ],
   "note": "Without padding; the factors are bounds over all frequencies of the grid."
  },
  {
   "property": "C101",
   "status": "proved",
   "theorems": [
    "C101_spacing_divides_the_globe",
    "C101_grid_determines_coefficients",
    "C101_grid_determines_the_field"
   ],
   "note": "Proved on the surface of any ellipsoid of revolution (height 0). Along a parallel the orders separate by discrete orthogonality over the 4N+4 longitudes. Along a meridian the square of the normalised radius is a polynomial of degree at most 2 in the sine of the spherical latitude, so each order and parity is a polynomial of degree at most 2N with 2N+1 distinct zeros. Heights other than 0 are not covered by this theorem on a flattened ellipsoid."
  },
  {
   "property": "C102",
   "status": "proved",
   "theorems": [
    "C102_inputs_are_rounded",
    "C102_results_have_the_type"
   ],
   "note": "The rounding is any idempotent function that keeps zero; the arithmetic between roundings is exact. Coefficients of the plain class come from the least-squares solver, an argument of the model, and are not covered."
  },
  {
   "property": "C103",
   "status": "proved",
   "theorems": [
    "C103_masses_move",
    "C103_dipoles_move",
    "C103_globe_turns",
    "C103_scaling",
    "C103_action_and_reaction",
    "C103_dipole_reciprocity"
   ],
   "note": "Positions of sources and observation points are the ones given by the user; at coincident points the code divides by zero, which the real-number model does not represent."
  },
  {
   "property": "C104",
   "status": "proved",
   "theorems": [
    "C104_deconvolution",
    "C104_inversion",
    "C104_fair_weights",
    "C104_order"
   ],
   "note": "Raising the field by a constant is proved for the deconvolution only: the inversion starts from 0.9 times the data and treats the level of the data as part of that start."
  },
  {
   "property": "C105",
   "status": "proved",
   "theorems": [
    "C105_error_bound",
    "C105_resolved_by_size",
    "C105_cells_add",
    "C105_converges"
   ],
   "note": "Newton's integral is an iterated Riemann integral with the volume element r^2 cos(latitude). The bound is of first order in the sizes of the small tesseroids; it is not a claim that the documented distance-size ratios give 0.1 percent accuracy."
  },
  {
   "property": "C106",
   "status": "proved",
   "theorems": [
    "C106_error_bound",
    "C106_converges"
   ],
   "note": "scipy's bounded minimiser is an argument: it only has to report an interior abscissa and the value there. Continuity up to the ends of the radius interval is assumed for the discretisation to end. First-order bound, as in C105."
  },
  {
   "property": "C107",
   "status": "proved",
   "theorems": [
    "C107_above",
    "C107_cavity",
    "C107_constant_density",
    "C107_gravity",
    "C107_gravity_variable"
   ],
   "note": "C107_above and C107_cavity state the shell theorem for Newton's integral over the tesseroids of the shell, proved by rotating the sphere. C107_gravity and C107_gravity_variable state that the computed values converge to it when the tesseroids are cut finer. C107_constant_density gives the mass in closed form."
  },
  {
   "property": "C108",
   "status": "proved",
   "theorems": [
    "C108_ellipsoids",
    "C108_tesseroids_and_ellipsoids",
    "C108_point_mass"
   ],
   "note": "Balls, tesseroids and the point mass agree. C108_ellipsoids covers points inside of the layers too."
  },
  {
   "property": "C109",
   "status": "proved",
   "theorems": [
    "C109_main_field_of_dipole",
    "C109_main_field_of_magnet"
   ],
   "note": "Three magnetic forward models agree on a central dipole: igrf.py (degree one), dipole.py and ellipsoids/magnetic.py."
  },
  {
   "property": "C110",
   "status": "proved",
   "theorems": [
    "C110_poisson_relation",
    "C110_equivalent_sources",
    "C110_equivalent_sources_sph"
   ],
   "note": "Needs the values of C71, C02 and C61; the choclo kernels are those modelled there."
  },
  {
   "property": "C111",
   "status": "proved",
   "theorems": [
    "C111_point_sources",
    "C111_tesseroids",
    "C111_tesseroids_of_variable_density",
    "C111_without_checks",
    "C111_pieces"
   ],
   "note": "Equality of outcomes up to OverflowError in one of the two calls, since the order in which the pieces are stacked is not symmetric."
  },
  {
   "property": "C112",
   "status": "proved",
   "theorems": [
    "C112_enlarged_tesseroids",
    "C112_pieces"
   ],
   "note": "Exact numbers, both fields; constant density."
  },
  {
   "property": "C113",
   "status": "proved",
   "theorems": [
    "C113_gravity",
    "C113_magnetic"
   ],
   "note": "Exact numbers; every shape the code distinguishes."
  },
  {
   "property": "C114",
   "status": "partial",
   "theorems": [
    "C114_similar_surveys_partial",
    "C114_similar_surveys_undamped",
    "C114_similar_surveys_sph_partial",
    "C114_frames",
    "C114_sources_follow",
    "C114_sources_follow_sph",
    "C114_one_datum_refuted"
   ],
   "note": "With damping the theorems ask that every source has different distances to some two data points, or that the unit is unchanged. C114_one_datum_refuted shows this is needed: a single datum fitted with damping 3 gives 7/4 in one unit and 7/13 in another, because the scaler leaves columns without spread alone. The solver is any function returning a minimiser of the damped misfit."
  },
  {
   "property": "C115",
   "status": "partial",
   "theorems": [
    "C115_profiles_partial",
    "C115_high_above_partial",
    "C115_long_wavelengths_partial",
    "C115_upward_continuation_refuted",
    "C115_lowpass_profile_refuted"
   ],
   "note": "Proved for profiles at any height (the discrete Poisson kernel is non-negative) and, on any grid, above a stated height or wavelength. Two counterexamples: a 4 by 4 spike continued by less than a tenth of the spacing, and a low-pass filtered profile of four nodes, both have negative values."
  },
  {
   "property": "C116",
   "status": "partial",
   "theorems": [
    "C116_error_falls_partial",
    "C116_error_grows_refuted",
    "C116_weighted_misfit_falls_partial",
    "C116_weighted_error_grows_refuted"
   ],
   "note": "Proved for windows that see all data, with and without weights (then for the weighted misfit). The general statement is refuted by two data and two windows, and for the unweighted error of a weighted fit by one window, for every solver."
  }
 ]
}
