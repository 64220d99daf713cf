{
 "claims": [
  {
   "property": "C01",
   "status": "proved",
   "theorems": [
    "C01_coo_is_a_map",
    "C01_coo_never_stuck",
    "C01_reachable_is_valid"
   ],
   "note": "Every history of accesses, every value type, every hash order; reachable matrices are valid."
  },
  {
   "property": "C02",
   "status": "proved",
   "theorems": [
    "C02_csr_lossless",
    "C02_csr_order_independent"
   ],
   "note": "All sizes and patterns, any value type."
  },
  {
   "property": "C03",
   "status": "partial",
   "theorems": [
    "C03_csr_trichotomy",
    "C03_csr_in_bounds_refuted"
   ],
   "note": "The claim is refuted: a missing diagonal entry makes the conversion write out of bounds (witness), or makes nnz wrap to about 2^32. C03_csr_trichotomy gives the exact condition."
  },
  {
   "property": "C04",
   "status": "proved",
   "theorems": [
    "C04_symmetric_product"
   ],
   "note": "Exact arithmetic."
  },
  {
   "property": "C05",
   "status": "proved",
   "theorems": [
    "C05_triangular_products",
    "C05_adjoint",
    "C05_sum"
   ],
   "note": "Exact arithmetic."
  },
  {
   "property": "C06",
   "status": "proved",
   "theorems": [
    "C06_kernels_alias_safe",
    "C06_division_alias_safe",
    "C06_short_operands_are_undefined",
    "C06_short_result_is_undefined"
   ],
   "note": "For every scalar type, hence also binary64."
  },
  {
   "property": "C07",
   "status": "proved",
   "theorems": [
    "C07_dot_is_the_inner_product",
    "C07_squareSum_and_norm",
    "C07_dot_symmetric",
    "C07_dot_linear",
    "C07_squareSum_definite",
    "C07_cauchy_schwarz",
    "C07_triangle",
    "C07_norm_scales"
   ],
   "note": "Exact arithmetic."
  },
  {
   "property": "C08",
   "status": "proved",
   "theorems": [
    "C08_ssor_solves_its_matrix",
    "C08_ssor_unique",
    "C08_ssor_linear",
    "C08_ssor_symmetric",
    "C08_ssor_positive"
   ],
   "note": "Exact arithmetic, all sizes >= 1 and patterns; any omega for the matrix equation."
  },
  {
   "property": "C09",
   "status": "partial",
   "theorems": [
    "C09_solvers_in_bounds",
    "C09_ssor_preconditioner_in_bounds",
    "C09_ssor_empty_out_of_bounds",
    "C09_solvers_in_bounds_refuted"
   ],
   "note": "Proved for every scalar type and every size except the SSOR preconditioner on the empty system, where m-1 wraps in uint32_t and the claim is refuted."
  },
  {
   "property": "C10",
   "status": "proved",
   "theorems": [
    "C10_stopping_is_about_the_true_residual"
   ],
   "note": "Exact arithmetic, all four solvers; also the converse for runs that hit the limit. |maxError| because the code compares squares."
  },
  {
   "property": "C11",
   "status": "partial",
   "theorems": [
    "C11_solvers_finish",
    "C11_jacobi_divides_by_zero_at_the_solution",
    "C11_solvers_finish_refuted"
   ],
   "note": "Refuted for the Jacobi solver started at the exact solution (0/0, NaN in binary64). Proved for CG, SSOR (0<omega<2), Jacobi with b<>Ax0, and Cholesky when its factor exists and step lengths stay above DBL_EPSILON."
  },
  {
   "property": "C12",
   "status": "proved",
   "theorems": [
    "C12_energy_decreases",
    "C12_limit_beyond_the_stop_changes_nothing"
   ],
   "note": "Exact arithmetic; stated through the iteration limit. No clamp hypothesis needed: for Jacobi and SSOR the clamp provably cannot fire, for CG it only shortens the step. Cholesky under the usability condition."
  },
  {
   "property": "C13",
   "status": "partial",
   "theorems": [
    "C13_completes_closed",
    "C13_closed_patterns",
    "C13_factor_exists",
    "C13_pattern_kept",
    "C13_preconditioner_symmetric_positive",
    "C13_spd_factorisation_completes_refuted",
    "C13_binary64_solution_nan_refuted"
   ],
   "note": "Pattern, symmetry and positivity proved. Completion on SPD matrices refuted by a 4x4 witness (pivot -1), NaN solution in binary64. Proved for every SPD matrix whose pattern elimination does not leave (fully stored, tridiagonal, ...): it completes and leaves the reciprocals of the diagonal of the one Cholesky factor (C13_completes_closed, exact arithmetic)."
  },
  {
   "property": "C14",
   "status": "proved",
   "theorems": [
    "C14_dirichlet_solutions",
    "C14_many_dirichlet_solutions",
    "C14_dirichlet_posdef",
    "C14_dirichlet_out_of_range"
   ],
   "note": "Exact arithmetic; an out-of-range node is undefined behaviour."
  },
  {
   "property": "C15",
   "status": "proved",
   "theorems": [
    "C15_dirichlet_any_order",
    "C15_dirichlet_idempotent",
    "C15_dirichlet_hash_order"
   ],
   "note": "Order of conditions in exact arithmetic; hash order for every scalar type."
  },
  {
   "property": "C16",
   "status": "partial",
   "theorems": [
    "C16_reset_exact",
    "C16_reset_solutions",
    "C16_last_value_wins_refuted"
   ],
   "note": "Refuted: the other right-hand sides keep the first value. C16_reset_exact gives the exact condition, C16_reset_solutions what is solved instead."
  },
  {
   "property": "C17",
   "status": "partial",
   "theorems": [
    "C17_expressions_homomorphic",
    "C17_no_self_alias_is_defined",
    "C17_bad_permeability",
    "C17_linear_iff",
    "C17_self_addition_refuted"
   ],
   "note": "Proved for every program without self-addition; e += e and e -= e on an expression with terms is undefined behaviour (refuted part)."
  },
  {
   "property": "C18",
   "status": "proved",
   "theorems": [
    "C18_symbolic_matrix_evaluation",
    "C18_symbolic_dirichlet"
   ],
   "note": "Exact arithmetic, any evaluation history."
  },
  {
   "property": "C19",
   "status": "proved",
   "theorems": [
    "C19_rotation_isometry",
    "C19_rotation_composes",
    "C19_rotation_undone",
    "C19_rotation_fixes_centre",
    "C19_quarter_turn",
    "C19_area",
    "C19_area_invariant",
    "C19_polygon_rotation",
    "C19_normal",
    "C19_normalize"
   ],
   "note": "Exact arithmetic."
  },
  {
   "property": "C20",
   "status": "partial",
   "theorems": [
    "C20_equality",
    "C20_inequality",
    "C20_reflexive",
    "C20_transitive_refuted",
    "C20_chain",
    "C20_hash_refuted",
    "C20_reflexive_nan_refuted"
   ],
   "note": "Refuted: == is not transitive, and the hash respects it only if std::hash<double> is constant; an infinite vector differs from itself in binary64. Reflexivity and symmetry proved, chains bounded."
  },
  {
   "property": "C21",
   "status": "partial",
   "theorems": [
    "C21_exact",
    "C21_sound",
    "C21_complete",
    "C21_vertex_order",
    "C21_degenerate_refuted",
    "C21_small_triangle_refuted"
   ],
   "note": "Exact for every triangle of double area at least 3*2^-52. The degenerate half is refuted (collinear triangle accepts far points; nanometre triangle accepts outside points)."
  },
  {
   "property": "C22",
   "status": "proved",
   "theorems": [
    "C22_boundary_counts",
    "C22_even_odd",
    "C22_ray_count_unique",
    "C22_starting_vertex",
    "C22_direction",
    "C22_translation",
    "C22_rectangle",
    "C22_triangle",
    "C22_outside_bounding_box",
    "C22_tolerance",
    "C22_polygon_in_polygon"
   ],
   "note": "Exact arithmetic. Boundary, even-odd rule, start vertex, direction, translation, rectangles, triangles, bounding box; the tolerance overload for polygons without zero-length edges."
  },
  {
   "property": "C23",
   "status": "partial",
   "theorems": [
    "C23_minimum",
    "C23_degenerate_refuted",
    "C23_degenerate_nan_refuted"
   ],
   "note": "Proved for every segment with distinct endpoints; refuted for coinciding endpoints (0/0, NaN)."
  },
  {
   "property": "C24",
   "status": "partial",
   "theorems": [
    "C24_exact_partial",
    "C24_touching_exact",
    "C24_touch_is_a_touch",
    "C24_sound",
    "C24_grid",
    "C24_crossing_detected",
    "C24_direction_refuted",
    "C24_degenerate_refuted",
    "C24_bounding_box"
   ],
   "note": "Exact except when an endpoint of the first segment lies in the interior of the second: there the answer depends on direction and order (refuted). C24_touching_exact says when such a touch is missed. Coordinates coarse relative to 1e-100; zero-length first segment refuted."
  },
  {
   "property": "C25",
   "status": "partial",
   "theorems": [
    "C25_enclosing_exact",
    "C25_enclosing_refuted",
    "C25_double_radius_encloses",
    "C25_centred_encloses",
    "C25_empty_drawing",
    "C25_minimum_partial",
    "C25_minimum_refuted"
   ],
   "note": "Refuted: getEnclosingCircle uses the centroid with a radius measured from the origin, also with the factor 1.5 used by the simulation; getMinimumEnclosingCircle misses a point of a 5-point set. Proved: twice the radius encloses, centred drawings, up to 3 points."
  },
  {
   "property": "C26",
   "status": "proved",
   "theorems": [
    "C26_three_points",
    "C26_unique",
    "C26_order",
    "C26_collinear",
    "C26_two_points"
   ],
   "note": "Exact arithmetic; collinear points give a division by zero."
  },
  {
   "property": "C27",
   "status": "partial",
   "theorems": [
    "C27_well_formed",
    "C27_memory_safe",
    "C27_empty_polygon_refuted",
    "C27_outline_drawn",
    "C27_polygons_outlined"
   ],
   "note": "Well-formedness and memory safety for every scalar type and history; outlines in exact arithmetic. Refuted for the empty vertex list: drawPolygon computes 0 - 1 in uint32_t and reads out of bounds."
  },
  {
   "property": "C28",
   "status": "partial",
   "theorems": [
    "C28_refuted",
    "C28_crossing_partial",
    "C28_rejection_justified"
   ],
   "note": "Refuted: two rectangles forming a cross are accepted, because the bounding-box prefilter asks for an end of the new edge in the box of the stored segment. Proved: rejection when the prefilter passes, for any edge of any outline; and every rejection is justified."
  },
  {
   "property": "C29",
   "status": "partial",
   "theorems": [
    "C29_refuted",
    "C29_failure_only_adds_partial",
    "C29_others_succeed"
   ],
   "note": "Refuted: points and segments drawn before the exception stay. Proved: nothing else changes and nothing is removed."
  },
  {
   "property": "C30",
   "status": "partial",
   "theorems": [
    "C30_refuted",
    "C30_merged_partial",
    "C30_segments_have_two_ends"
   ],
   "note": "Refuted by an edge shorter than the tolerance and by drawPoint. Proved for all histories of outlines whose edges are at least the tolerance long (twice it for segments with two different ends)."
  },
  {
   "property": "C31",
   "status": "partial",
   "theorems": [
    "C31_recorded",
    "C31_stable",
    "C31_lookup",
    "C31_same_property_same_id",
    "C31_equal_properties_partial",
    "C31_equal_refuted"
   ],
   "note": "Faithful, stable, in bounds for every property type; equal properties get equal ids if operator== is an equivalence. Refuted for the tolerance comparison of magnetisations."
  },
  {
   "property": "C32",
   "status": "partial",
   "theorems": [
    "C32_translate",
    "C32_translate_back",
    "C32_answers_unchanged",
    "C32_ieee_refuted"
   ],
   "note": "Exact arithmetic as claimed; the IEEE way back is refuted."
  },
  {
   "property": "C33",
   "status": "partial",
   "theorems": [
    "C33_refuted",
    "C33_exact_partial",
    "C33_unknown_polygon"
   ],
   "note": "Refuted: with two or more seeds in a polygon the default property is returned, whatever the nesting. Proved: exact case analysis."
  },
  {
   "property": "C34",
   "status": "proved",
   "theorems": [
    "C34_refining_only_adds",
    "C34_magnets_only_add"
   ],
   "note": "Every scalar type, every outcome."
  },
  {
   "property": "C35",
   "status": "partial",
   "theorems": [
    "C35_conductor_safe_up_to_18",
    "C35_conductor_out_of_bounds_beyond_18",
    "C35_magnetostatic_safe_up_to_18",
    "C35_magnetostatic_out_of_bounds_beyond_18",
    "C35_cotangent_safe_up_to_9",
    "C35_cotangent_out_of_bounds_beyond_9",
    "C35_refuted"
   ],
   "note": "Refuted by a conforming fan of 19 triangles around one vertex. Proved: the assembly of both problems stays in bounds exactly when no vertex has more than 18 triangles (9 for the cotangent weights), for every scalar type."
  },
  {
   "property": "C36",
   "status": "proved",
   "theorems": [
    "C36_conductor_energy",
    "C36_gradients_exist",
    "C36_conductor_semidefinite",
    "C36_symmetric",
    "C36_currents_add_up_to_zero"
   ],
   "note": "Energy, row sums, semidefiniteness and symmetry over exact reals, for meshes with at most 18 triangles per vertex and no degenerate triangle. Rounding is not modelled here."
  },
  {
   "property": "C37",
   "status": "proved",
   "theorems": [
    "C37_total_load",
    "C37_energy_and_row_sums"
   ],
   "note": "Total load for drawings without magnets (the magnets are C50); energy and row sums of the magnetostatic matrix for every mu."
  },
  {
   "property": "C38",
   "status": "proved",
   "theorems": [
    "C38_gradient_of_an_affine_field",
    "C38_curl_is_the_gradient_turned",
    "C38_normal_flux_is_continuous",
    "C38_flux_out_of_a_triangle_is_zero",
    "C38_degenerate_triangle"
   ],
   "note": "Exact reals. computeCurl returns (-dA/dy, dA/dx), minus the usual curl; its size and fluxes are those of the field."
  },
  {
   "property": "C39",
   "status": "partial",
   "theorems": [
    "C39_same_ray_and_product",
    "C39_core_is_clamped",
    "C39_circle_is_fixed",
    "C39_own_inverse",
    "C39_moves_unmarked_vertices_only",
    "C39_origin",
    "C39_finite_refuted",
    "C39_off_centre_refuted"
   ],
   "note": "Refuted: a vertex at the origin gets no finite position, and off centre the clamp is measured from the wrong point. Proved: ray, product of distances, fixed circle, involution, only unmarked vertices move."
  },
  {
   "property": "C40",
   "status": "partial",
   "theorems": [
    "C40_polygon",
    "C40_area_and_mass",
    "C40_barycentre",
    "C40_barycentre_in_every_half_plane",
    "C40_inertia",
    "C40_inertia_is_nonnegative_and_least_at_the_barycentre",
    "C40_numbering_does_not_matter",
    "C40_translation",
    "C40_frame_refuted",
    "C40_inertia_of_a_square_refuted"
   ],
   "note": "Refuted: the barycentre comes back in the frame of the mesh instead of the user's, and triangles count as point masses in the inertia moment. Proved: formulas, half-plane containment, parallel axes, independence of numbering, translation within the frame of the mesh."
  },
  {
   "property": "C41",
   "status": "partial",
   "theorems": [
    "C41_out_of_bounds_iff",
    "C41_defined_outside_the_last_interval",
    "C41_constant_and_single_point",
    "C41_flat_curve",
    "C41_curves_are_ordered",
    "C41_refuted",
    "C41_binary64_iron_refuted"
   ],
   "note": "False as stated: an induction between the last two points of the curve reads past the end of the set (C41_refuted; C41_binary64_iron_refuted for the library's own iron curve). Proved exactly: undefined iff the induction lies there, in any arithmetic; otherwise the slope of a known segment, which is positive for increasing curves."
  },
  {
   "property": "C42",
   "status": "partial",
   "theorems": [
    "C42_values",
    "C42_bounds_partial",
    "C42_stays_positive",
    "C42_defined",
    "C42_first_update_ignores_the_curve",
    "C42_between_refuted"
   ],
   "note": "Positivity over any sequence of updates is proved. The upper bound is false as stated (C42_between_refuted): vacuum*residual^2 is added, and the first residual is 1e10. C42_bounds_partial gives the bound that holds."
  },
  {
   "property": "C43",
   "status": "partial",
   "theorems": [
    "C43_one_call",
    "C43_any_calls",
    "C43_any_calls_layers",
    "C43_unknown_layer",
    "C43_binary64_refuted"
   ],
   "note": "Proved in exact arithmetic for every mesh and call history, with the exact meaning of repeated calls: the addressed node has the last value, but its neighbours keep the first one (their right-hand side is not corrected). In binary64 the squared distance can underflow or overflow (C43_binary64_refuted)."
  },
  {
   "property": "C44",
   "status": "proved",
   "theorems": [
    "C44_layers_independent",
    "C44_one_unknown_per_node",
    "C44_depths"
   ],
   "note": ""
  },
  {
   "property": "C45",
   "status": "partial",
   "theorems": [
    "C45_conservation_partial",
    "C45_entries",
    "C45_row_sums",
    "C45_self_interconnection",
    "C45_refuted"
   ],
   "note": "False as stated (C45_refuted): the conductance is 2/R, a second interconnection between the same nodes (or one between neighbours of a layer) overwrites the coupling, one from a node to itself makes the diagonal negative. Proved: all entries and row sums for any list of interconnections; conservation and energy when they join different layers and different pairs of nodes."
  },
  {
   "property": "C46",
   "status": "proved",
   "theorems": [
    "C46_power",
    "C46_short_vector"
   ],
   "note": "Exact arithmetic; a voltage vector shorter than the number of nodes is an out-of-bounds read (C46_short_vector)."
  },
  {
   "property": "C47",
   "status": "partial",
   "theorems": [
    "C47_matrix",
    "C47_outcomes",
    "C47_independent_iff",
    "C47_prescribed_partial",
    "C47_weights",
    "C47_accuracy",
    "C47_prescribed_refuted",
    "C47_refuted"
   ],
   "note": "False of the code. Proved: the matrix after elimination is the same for all orders (C47_matrix); the right-hand sides reached are exactly those that keep an arbitrary choice of the contributions to held nodes (C47_outcomes); independence of the order holds iff no entry couples a body node with a held node of a higher number (C47_independent_iff, C47_weights); under a stronger condition the solution takes the prescribed values (C47_prescribed_partial). Refuted: prescribed values (C47_prescribed_refuted, also with one order), order independence of the force (C47_refuted, binary64). C47_accuracy: the weights come from at most 100 solver steps from zero, and when the solver stops earlier the residual is below 1e-100."
  },
  {
   "property": "C48",
   "status": "partial",
   "theorems": [
    "C48_closed",
    "C48_open",
    "C48_planar_refuted"
   ],
   "note": "False for planar triangulations. Proved: on a closed surface, every neighbour read is the triangle behind the side and the error values are those of the field jumps (C48_closed). A side with one or more than two triangles makes the computation undefined (C48_open), which happens for every non-empty conforming plane triangulation (C48_planar_refuted)."
  },
  {
   "property": "C49",
   "status": "partial",
   "theorems": [
    "C49_three_farthest",
    "C49_potential_is_zero_there",
    "C49_refuted"
   ],
   "note": "Refuted by a three-vertex mesh with a vertex at the origin. Proved when three vertices differ from the origin; the boundary values hold exactly."
  },
  {
   "property": "C50",
   "status": "partial",
   "theorems": [
    "C50_segments",
    "C50_rectangle_points_lie_inside",
    "C50_load",
    "C50_alone_counted_once_per_vertex",
    "C50_nested_counted_once_per_label",
    "C50_refuted"
   ],
   "note": "Refuted: a magnet that no other polygon surrounds is counted once per vertex, and two labels in one magnet count it twice; each end of a mesh edge gets the whole edge current. Proved: the exact load formula, zero net current, single counting for one label inside other polygons."
  },
  {
   "property": "C51",
   "status": "partial",
   "theorems": [
    "C51_limit",
    "C51_limit_nan",
    "C51_map",
    "C51_map_inverse",
    "C51_map_degenerate_refuted",
    "C51_jet",
    "C51_jet_faithful",
    "C51_jet_constant_field_refuted"
   ],
   "note": "Proved for a<b; a constant field (vmin = vmax) gives 0/0 in map and val2jet (refuted part), NaN passes through limit."
  },
  {
   "property": "C52",
   "status": "partial",
   "theorems": [
    "C52_safe_partial",
    "C52_freed_partial",
    "C52_copy",
    "C52_refuted",
    "C52_use_refuted",
    "C52_leak_refuted"
   ],
   "note": "Refuted: the compiler-generated copy operations copy the pointers, so copying a meshed object and destroying both frees every buffer twice, in every state (C52_copy, C52_refuted), a surviving copy reads freed memory (C52_use_refuted), and meshing twice leaks (C52_leak_refuted). Proved for all histories that copy meshes only before they are meshed, as the constructors and vectors of the library do: no double free and no use after free (C52_safe_partial), and if nothing is meshed twice every buffer has been freed exactly once at the end (C52_freed_partial)."
  },
  {
   "property": "C53",
   "status": "partial",
   "theorems": [
    "C53_plot_inside",
    "C53_box_contains_every_vertex",
    "C53_no_vertices",
    "C53_clipped_box",
    "C53_plot_stays_in_the_image",
    "C53_coincident_vertices",
    "C53_smallest_refuted"
   ],
   "note": "Containment and the plot transforms proved; minimality refuted; no vertices or coincident vertices divide by zero."
  },
  {
   "property": "C54",
   "status": "partial",
   "theorems": [
    "C54_fifo",
    "C54_once",
    "C54_stop_partial",
    "C54_no_deadlock",
    "C54_ends",
    "C54_refuted"
   ],
   "note": "Proved for every interleaving, spurious wakeups included: tasks start in push order, each by one worker, nothing is lost (C54_fifo, C54_once), no reachable state is stuck before Stop returns and every execution is finite (C54_no_deadlock, C54_ends), and with at least one worker Stop returns with all tasks ended (C54_stop_partial). Refuted for a pool of zero workers, which the default argument can give: Stop returns with no task run (C54_refuted). Tasks themselves are assumed to terminate."
  },
  {
   "property": "C55",
   "status": "proved",
   "theorems": [
    "C55_finite_termination",
    "C55_plain_cg_finite_termination"
   ],
   "note": "Exact arithmetic. Jacobi needs b<>Ax0 (see C11); Cholesky needs the usability condition; plain CG needs the clamp not to fire, as stated."
  },
  {
   "property": "C56",
   "status": "partial",
   "theorems": [
    "C56_inverse_iff",
    "C56_usable",
    "C56_one_iteration",
    "C56_full_pattern_inverse_refuted"
   ],
   "note": "Refuted: an inverse-factor entry that is exactly zero is skipped (sum != 0) and keeps the un-inverted value. C56_inverse_iff: on a fully stored SPD matrix the preconditioner is the inverse for every r exactly when no position above the diagonal vanishes in the inverse of the Cholesky factor but not in the factor; then the solver is usable without assumptions on the computed factor (C56_usable) and stops after its first iteration at the solution for every right-hand side, start and tolerance (C56_one_iteration). Exact arithmetic."
  },
  {
   "property": "C57",
   "status": "proved",
   "theorems": [
    "C57_feature_size"
   ],
   "note": "Exact arithmetic; translation invariance is C32_answers_unchanged."
  },
  {
   "property": "C58",
   "status": "proved",
   "theorems": [
    "C58_refining_points",
    "C58_magnet_points"
   ],
   "note": "Exact arithmetic for addRefiningPoints, every scalar type for refineMeshAroundMagnets."
  },
  {
   "property": "C59",
   "status": "proved",
   "theorems": [
    "C59_conductor",
    "C59_magnetostatic",
    "C59_nothing_held_is_singular"
   ],
   "note": "Exact reals; for the magnetostatic problem with the three farthest vertices held and every positive mu."
  },
  {
   "property": "C60",
   "status": "partial",
   "theorems": [
    "C60_what_is_added",
    "C60_succeeds_when_the_boundaries_match",
    "C60_unmatched_vertex_is_undefined",
    "C60_new_vertices_are_distinct",
    "C60_refuted"
   ],
   "note": "Refuted: an unmatched boundary vertex is undefined behaviour. Proved: what is added, and success exactly when every used boundary vertex has a partner."
  },
  {
   "property": "C62",
   "status": "proved",
   "theorems": [
    "C62_half_the_shortest_edge",
    "C62_positive"
   ],
   "note": "Exact reals."
  },
  {
   "property": "C64",
   "status": "partial",
   "theorems": [
    "C64_proportional_curve",
    "C64_refuted"
   ],
   "note": "False (C64_refuted): inside the curve the slope of the following segment is returned. Holds for curves proportional to H (C64_proportional_curve)."
  },
  {
   "property": "C65",
   "status": "partial",
   "theorems": [
    "C65_linear",
    "C65_row_by_row",
    "C65_nonlinear_partial",
    "C65_early_convergence",
    "C65_early_convergence_17",
    "C65_reported_convergence_refuted"
   ],
   "note": "Proved for linear materials (success, convergence, residual below 1e-6 with the materials' permeabilities). For non-linear materials: the only failure is the undefined curve look-up, permeabilities stay positive, and reported convergence means a residual below 1e-7 for the permeabilities last used. That these are the curves' permeabilities is false: C65_reported_convergence_refuted (binary64, the library's iron) shows convergence reported in iteration 1 with a permeability above 1e13, because the update mixes in the artificial first residual 1e10 (C65_early_convergence gives the exact lower bound for any problem)."
  },
  {
   "property": "C67",
   "status": "proved",
   "theorems": [
    "C67_conductor",
    "C67_layers",
    "C67_fits"
   ],
   "note": "Exact arithmetic. The 32-bit counters of the matrix are assumed not to overflow; C67_fits shows this up to 92681 nodes. For several layers the interconnections join different layers and different pairs of nodes (otherwise see C45)."
  },
  {
   "property": "C68",
   "status": "partial",
   "theorems": [
    "C68_exactly_one",
    "C68_otherwise",
    "C68_refuted"
   ],
   "note": "False of the code. A value is returned only when exactly one outline encloses the body (C68_exactly_one, any scalar type); with a second outline the removal loop reads past the end (C68_refuted, binary64). C68_otherwise says what happens in every other case, with exact arithmetic: an error when no outline contains the point; undefined behaviour without a surrounding outline or with several of which one contains no other; the error after 101 passes when each of several contains another."
  },
  {
   "property": "C69",
   "status": "partial",
   "theorems": [
    "C69_vanishing",
    "C69_tables",
    "C69_refuted"
   ],
   "note": "False of the code. Where the field is zero around a free vertex a zero pivot is divided by (C69_vanishing, C69_tables, exact arithmetic); in binary64 the force is NaN for the zero field and for a uniform field with equal error estimates (C69_refuted)."
  },
  {
   "property": "C70",
   "status": "partial",
   "theorems": [
    "C70_uniform_partial",
    "C70_rim_not_held",
    "C70_refuted"
   ],
   "note": "False of the code. The integral over the shell vanishes for every triangulation when the weights agree along each edge of the rim (C70_uniform_partial), but the nodes held at zero lie outside the shell (C70_rim_not_held); in binary64 the force of a uniform field is above 1000 (C70_refuted)."
  },
  {
   "property": "C71",
   "status": "partial",
   "theorems": [
    "C71_integral_partial",
    "C71_refuted"
   ],
   "note": "False of the code. For given weights the integral is quadratic (C71_integral_partial); the weights depend on the sign and size of the field through the signed error estimate, and the force changes (C71_refuted, binary64)."
  },
  {
   "property": "C72",
   "status": "proved",
   "theorems": [
    "C72_force",
    "C72_torque",
    "C72_weight_range",
    "C72_flat"
   ],
   "note": "Exact arithmetic. The tables of adjacent triangles are those the code builds."
  },
  {
   "property": "C73",
   "status": "proved",
   "theorems": [
    "C73_force",
    "C73_torque",
    "C73_defined"
   ],
   "note": "Exact arithmetic; mu0 is a parameter."
  },
  {
   "property": "C74",
   "status": "partial",
   "theorems": [
    "C74_density_partial",
    "C74_refuted"
   ],
   "note": "False of the code: the weights are chosen from the x component of the force density alone (C72_force). The density itself turns (C74_density_partial); in binary64 a quarter turn changes the force (C74_refuted)."
  },
  {
   "property": "C75",
   "status": "partial",
   "theorems": [
    "C75_moment_partial",
    "C75_refuted"
   ],
   "note": "False of the code: each centre, and the force, has its own weights. For given weights it holds (C75_moment_partial); in binary64 the torque rises where it must fall (C75_refuted)."
  },
  {
   "property": "C66",
   "status": "partial",
   "theorems": [
    "C66_points",
    "C66_clear",
    "C66_symmetric",
    "C66_on_segment",
    "C66_refuted"
   ],
   "note": "Proved in exact arithmetic except the last clause: which points are drawn (C66_points), their distances (C66_clear) and symmetry (C66_symmetric). 'No point is drawn twice' is refuted: an interconnection that ends on a segment or corner gets both rings collapsed onto its end, 20 more copies of one point (C66_on_segment, C66_refuted)."
  },
  {
   "property": "C76",
   "status": "proved",
   "theorems": [
    "C76_equal"
   ],
   "note": "In exact arithmetic."
  },
  {
   "property": "C77",
   "status": "partial",
   "theorems": [
    "C77_rectangle_types",
    "C77_region_types",
    "C77_polygon_types",
    "C77_link_types",
    "C77_voltage_types",
    "C77_new",
    "C77_unchanged",
    "C77_rectangle_crash",
    "C77_region_crash",
    "C77_polygon_crash",
    "C77_link_crash",
    "C77_voltage_crash",
    "C77_solve_crash",
    "C77_solve_raises",
    "C77_generate_raises",
    "C77_link_unchanged",
    "C77_link_stored",
    "C77_link_layers",
    "C77_generate_types",
    "C77_refuted"
   ],
   "note": "Wrong number or types: proved for every method (C77_*_types, C77_new). Unchanged after an exception: proved for the drawing calls (C77_unchanged); for interconnections except that a layer number outside 64 bits is stored before the exception (C77_link_unchanged, C77_link_stored). 'No call ends the interpreter' is refuted (C77_refuted): too short coordinate lists, layers that do not exist and C++ exceptions of the drawing; C77_rectangle_crash, C77_region_crash, C77_polygon_crash and C77_link_crash say exactly when, C77_voltage_crash and C77_solve_crash cover an empty System and use before generate_system."
  },
  {
   "property": "C78",
   "status": "partial",
   "theorems": [
    "C78_new",
    "C78_layers",
    "C78_rectangle",
    "C78_region",
    "C78_polygon",
    "C78_link",
    "C78_voltage",
    "C78_generate",
    "C78_ints_refuted"
   ],
   "note": "Proved as equivalences for all six calls and for generate_system (C78_generate, with the mesher as a parameter that is given the area and the angle). 'Ints are accepted for every number' is refuted for the conductivity of draw_region (C78_ints_refuted). add_interconnection does not look at the layers: any 64-bit numbers are accepted, and generate_system then never returns a system (C77_link_layers)."
  },
  {
   "property": "C79",
   "status": "partial",
   "theorems": [
    "C79_vertices",
    "C79_triangles",
    "C79_solve",
    "C79_power",
    "C79_power_refuted",
    "C79_session"
   ],
   "note": "Proved for vertices, triangles and voltages (C79_vertices, C79_triangles, C79_solve), with the exact condition under which rows stay unset (a system with more unknowns than nodes). The first entry of a power row is the number of the triangle, not the layer (C79_power, C79_power_refuted). C79_session: in exact arithmetic, set_voltage calls and solve on well-formed layers return one complete row per node."
  },
  {
   "property": "C80",
   "status": "proved",
   "theorems": [
    "C80_regions",
    "C80_nodes",
    "C80_stress"
   ],
   "note": "Holds for every scalar type; when a region exists is C68."
  },
  {
   "property": "C61",
   "status": "partial",
   "theorems": [
    "C61_options",
    "C61_buffer",
    "C61_usual",
    "C61_small",
    "C61_negative_angle",
    "C61_negative_area",
    "C61_refuted"
   ],
   "note": "Proved for nonnegative angles and areas whose printed length fits (C61_options, C61_usual: angles below 100 and areas from 1e-17 up to 1e15). C61_buffer: the buffer of 42 characters is overrun exactly when the angle and the integer part of the area have more than 17 characters together; C61_small: an area printed as zero ends the process; C61_negative_angle: a negative angle asks for 20 degrees; C61_negative_area: a negative area lifts the limit. C61_refuted gives one case of each, and infinity and NaN."
  },
  {
   "property": "C63",
   "status": "partial",
   "theorems": [
    "C63_setup",
    "C63_usual",
    "C63_outside",
    "C63_same_boundary",
    "C63_refined",
    "C63_no_boundary",
    "C63_enclosed_refuted",
    "C63_seed_refuted"
   ],
   "note": "C63_setup: holds for every drawing inside the inscribed circle of the polygon, with the exact points, segments, regions; C63_usual gives sizes for which that is so (centroid within a quarter of the extent from the origin, elements between 1e-8 and 2 times the extent) and adds that the air seed is in no outline; C63_outside and C63_same_boundary: the outside gets the same boundary points; C63_refined: refinement only adds points. Refuted in general: a drawing whose centroid is far from the origin can stick out of the boundary (C63_enclosed_refuted) or contain the air seed (C63_seed_refuted), and for large elements there is no boundary at all (C63_no_boundary)."
  },
  {
   "property": "C81",
   "status": "proved",
   "theorems": [
    "C81_exact",
    "C81_drawn",
    "C81_ieee_refuted"
   ],
   "note": "C81_exact gives the complete result of the call; C81_drawn: the hypotheses hold for drawings made from outlines and every added point is accounted for. Exact arithmetic, with an exact sine, cosine and arc tangent; that the containment test is right is C22, the feature size C57. In binary64 the call can fail: C81_ieee_refuted moves a rectangle beyond the largest double, after which its corners do not compare equal to themselves and the call throws."
  },
  {
   "property": "C82",
   "status": "partial",
   "theorems": [
    "C82_exact",
    "C82_no_magnet",
    "C82_clear",
    "C82_rectangle_refuted",
    "C82_ieee_refuted"
   ],
   "note": "C82_exact describes every outcome: which outlines count, the candidates of each edge in order, which are taken, and that the call ends early exactly when the feature size is zero or the number of steps does not fit into uint32_t; C82_clear: every added point is in a magnet and clear of what was there; C82_no_magnet. That the call completes is refuted: on every rectangular magnet the first edge puts a point onto the adjacent side, the feature size becomes zero and the next edge divides by it (C82_rectangle_refuted); in binary64 the feature size becomes about 1e-16 and the conversion of the number of steps to uint32_t is undefined (C82_ieee_refuted)."
  },
  {
   "property": "C83",
   "status": "proved",
   "theorems": [
    "C83_barycentre",
    "C83_area",
    "C83_split",
    "C83_inside",
    "C83_range"
   ],
   "note": "C83_barycentre, C83_area, C83_split, C83_inside, C83_range. abs is read as the absolute value of a double."
  },
  {
   "property": "C84",
   "status": "partial",
   "theorems": [
    "C84_input",
    "C84_sizes",
    "C84_unwritten",
    "C84_removed",
    "C84_material",
    "C84_uniform",
    "C84_drawing",
    "C84_no_seed",
    "C84_orphan",
    "C84_default_refuted"
   ],
   "note": "C84_input, C84_sizes: the arrays; C84_removed, C84_material, C84_uniform, C84_drawing: which triangles are removed and which material each of the others gets. Two parts are false of the code: a part without a seed gets material number 0, the first one ever drawn (C84_drawing, C84_default_refuted), and without any seed the array of attributes is a null pointer that assembling reads (C84_no_seed); a node whose triangles are all removed stays in the mesh and the conduction problem is refused (C84_orphan). Triangulation, location of seeds and the later refinement are not modelled."
  },
  {
   "property": "C85",
   "status": "partial",
   "theorems": [
    "C85_entries",
    "C85_against_fem",
    "C85_inner_vertex",
    "C85_same_refuted"
   ],
   "note": "False: C85_same_refuted. C85_entries says exactly what the matrix contains: a side between two triangles gets the sum of the two cotangents (every neighbour is listed twice, which undoes the factor one half), with positive sign and without conductivity or depth; sides on the border get nothing; rows add up to zero. C85_against_fem compares both matrices side by side; C85_inner_vertex: with one conductivity the equation of an inner vertex is the finite element equation times a constant. Exact arithmetic with the true sine, cosine and arc tangent. More than nine triangles at a vertex: C35."
  },
  {
   "property": "C86",
   "status": "partial",
   "theorems": [
    "C86_solve",
    "C86_generate",
    "C86_history",
    "C86_new",
    "C86_refuted"
   ],
   "note": "The constructor part is proved (C86_new). The part about results is false (C86_refuted): PyTuple_Pack takes its own references, and the references of the code are never given up. C86_solve, C86_generate: dropping the result frees only the outermost tuple; the exact number of references lost is given, as is a lower bound on the objects lost (exact for all but the integers that CPython shares). C86_history: any sequence of calls loses the sum, at least three objects per call. The System object and its matrix are among what is lost."
  },
  {
   "property": "C87",
   "status": "proved",
   "theorems": [
    "C87_superposition",
    "C87_scale",
    "C87_similar"
   ],
   "note": "C87_superposition, C87_scale, C87_similar, over the reals, for calls holding different nodes. Solution here means exact solution of the system that generateSystem and setVoltage leave; how close solve comes is C67. Calls that hold one node twice are left to C43."
  },
  {
   "property": "C88",
   "status": "partial",
   "theorems": [
    "C88_between",
    "C88_acute",
    "C88_refuted"
   ],
   "note": "False in general (C88_refuted): one triangle with an obtuse angle, 0 V and 1 V imposed, -0.6 V at the third node. Proved when for every side the opposite cotangents weighted with the conductivities do not add up to less than zero (C88_between), in particular without obtuse angles (C88_acute). The mesher is asked for a smallest angle only, so obtuse angles occur. Solution here means exact solution of the system that generateSystem and setVoltage leave; how close solve comes is C67. Calls that hold one node twice are left to C43."
  },
  {
   "property": "C89",
   "status": "proved",
   "theorems": [
    "C89_affine"
   ],
   "note": "C89_affine: the affine function solves the system, and with positive conductivity and depth and every node linked to a held one it is the only solution. Solution here means exact solution of the system that generateSystem and setVoltage leave; how close solve comes is C67. Calls that hold one node twice are left to C43."
  },
  {
   "property": "C90",
   "status": "proved",
   "theorems": [
    "C90_least",
    "C90_raise",
    "C90_currents"
   ],
   "note": "C90_least, C90_raise, C90_currents; power and currents are stated with the gradients on the triangles, not with the matrix. Solution here means exact solution of the system that generateSystem and setVoltage leave; how close solve comes is C67. Calls that hold one node twice are left to C43."
  },
  {
   "property": "C91",
   "status": "partial",
   "theorems": [
    "C91_superposition",
    "C91_permeability",
    "C91_similar",
    "C91_refuted"
   ],
   "note": "C91_superposition, C91_permeability, C91_similar, over the reals. Superposition needs every magnetisation involved to be zero or at least 1e-9 long: smaller ones compare equal to zero and are dropped (C91_refuted: halving a magnet below that does not halve its potential, it removes it). Potential here means exact solution of the assembled system with the three outermost nodes held, for given permeabilities: linear materials, or one step of the nonlinear iteration; how close solve comes is C67."
  },
  {
   "property": "C92",
   "status": "proved",
   "theorems": [
    "C92_reciprocity",
    "C92_energy"
   ],
   "note": "C92_reciprocity, C92_energy; flux linkage and energy are integrals over the triangles, stated without the matrix. Potential here means exact solution of the assembled system with the three outermost nodes held, for given permeabilities: linear materials, or one step of the nonlinear iteration; how close solve comes is C67."
  },
  {
   "property": "C93",
   "status": "proved",
   "theorems": [
    "C93_least",
    "C93_raise"
   ],
   "note": "C93_least, C93_raise. Potential here means exact solution of the assembled system with the three outermost nodes held, for given permeabilities: linear materials, or one step of the nonlinear iteration; how close solve comes is C67."
  },
  {
   "property": "C94",
   "status": "partial",
   "theorems": [
    "C94_sign",
    "C94_monotone",
    "C94_acute",
    "C94_refuted"
   ],
   "note": "False in general (C94_refuted): a conforming mesh of three triangles, one with an obtuse angle. Proved when for every side the opposite cotangents over the permeabilities do not add up to less than zero (C94_sign, C94_monotone), in particular without obtuse angles (C94_acute). Potential here means exact solution of the assembled system with the three outermost nodes held, for given permeabilities: linear materials, or one step of the nonlinear iteration; how close solve comes is C67."
  },
  {
   "property": "C95",
   "status": "proved",
   "theorems": [
    "C95_superposition",
    "C95_scale"
   ],
   "note": "C95_superposition (any interconnections, also several between the same nodes), C95_scale (interconnections between different layers, at most one between two nodes). Voltages here means exact solution of the assembled system; how close solve comes is C67. Exact arithmetic."
  },
  {
   "property": "C96",
   "status": "partial",
   "theorems": [
    "C96_between",
    "C96_acute",
    "C96_refuted"
   ],
   "note": "Proved when in every layer the cotangents opposite to each side times conductivity do not add up to less than zero (C96_between), in particular without obtuse angles (C96_acute), with at most one interconnection between two nodes. False otherwise: C96_refuted has two interconnections between the same nodes and 1 V everywhere imposed, and the second layer is at 1/2 V; obtuse angles are C88_refuted. Voltages here means exact solution of the assembled system; how close solve comes is C67. Exact arithmetic."
  },
  {
   "property": "C97",
   "status": "partial",
   "theorems": [
    "C97_least",
    "C97_raise",
    "C97_currents",
    "C97_refuted"
   ],
   "note": "All of it is proved with current 2 (V1 - V2)/R and power 2 (V1 - V2)^2/R instead (C97_least, C97_raise, C97_currents): the assembly counts an interconnection of resistance R as the conductance 2/R. With (V1 - V2)/R the currents do not balance (C97_refuted). Voltages here means exact solution of the assembled system; how close solve comes is C67. Exact arithmetic."
  },
  {
   "property": "C98",
   "status": "proved",
   "theorems": [
    "C98_apart",
    "C98_single"
   ],
   "note": "C98_apart, C98_single. Voltages here means exact solution of the assembled system; how close solve comes is C67. Exact arithmetic."
  },
  {
   "property": "C99",
   "status": "partial",
   "theorems": [
    "C99_no_voltage",
    "C99_no_voltage_layers",
    "C99_weak",
    "C99_imposed",
    "C99_imposed_layers",
    "C99_refuted",
    "C99_no_source_linear",
    "C99_no_source_curves"
   ],
   "note": "Zero without sources is proved exactly (C99_no_voltage, C99_no_voltage_layers, C99_no_source_linear; with curves of materials C99_no_source_curves, where running off the end of a table is undefined behaviour and each material with a curve is left with a permeability of at least 1e20 times that of vacuum). The imposed voltages are returned within 1e-12 V, or 1e-7 V for joined layers (C99_imposed, C99_imposed_layers). The scaling is false: the tolerance is absolute, so for every problem there is a size of the voltages below which solve returns zero everywhere, at the electrodes too (C99_weak), while larger voltages are returned (C99_refuted). Exact arithmetic."
  },
  {
   "property": "C100",
   "status": "partial",
   "theorems": [
    "C100_grows",
    "C100_layers",
    "C100_unlinked",
    "C100_refuted"
   ],
   "note": "Without refinement: proved for a single conductor and for layers without interconnections, whose drawing a call leaves alone (C100_unlinked). False otherwise. Magnetostatics: the boundary of each call stays in the drawing, so call number k gets a boundary of (3/2)^k times the extent around all earlier ones, and from the second call on the centre is the origin although the drawing stays where the first call moved it (C100_grows, any number of calls, for the sizes of C63_usual); C100_refuted: a point the user drew is no longer found at its place minus the centre. Layers: each call draws all points for the interconnections once more in the same places (C100_layers). Exact arithmetic."
  },
  {
   "property": "C101",
   "status": "proved",
   "theorems": [
    "C101_accepted"
   ],
   "note": "C101_accepted, in exact arithmetic. Two vertices are the same or at least 1e-9 apart; two edges without a common end either have no end in the other's bounding box or share no point (with the granularity of C24)."
  },
  {
   "property": "C102",
   "status": "partial",
   "theorems": [
    "C102_design",
    "C102_current",
    "C102_current_refuted",
    "C102_size",
    "C102_descent",
    "C102_quadratic"
   ],
   "note": "Acceptance and seeds: C102_design. Current: false, C102_current_refuted; each winding carries 250, as the density is 1000 / (2 w h) and the area w h / 2 (C102_current). Element size: false, 0.001 is converted to the bool refine and the mesher gets area 1 (C102_size). Optimisation: the height never changes; for a force affine in the design n iterations raise it by 1000 n times the squared slopes in the two other parameters (C102_descent); for a quadratic force the iteration aims 0.15 below the extremum and multiplies the distance by 1 + 2000 q each time, so it runs away from every minimum and from maxima with q below -1/1000 (C102_quadratic); nothing is proved for other dependences. Exact arithmetic; meshing, solving and the force integral are a function of the calls and the mesh parameters."
  },
  {
   "property": "C103",
   "status": "proved",
   "theorems": [
    "C103_shape",
    "C103_accepted",
    "C103_turn",
    "C103_conserved"
   ],
   "note": "C103_shape, C103_accepted (centres more than two sides apart, half side at least 1e-9), C103_turn (also body by body), C103_conserved. Exact arithmetic; meshing, solving and the stress integral are an arbitrary function of the drawing."
  },
  {
   "property": "C104",
   "status": "partial",
   "theorems": [
    "C104_calls",
    "C104_net_current",
    "C104_seeds",
    "C104_phases",
    "C104_magnets",
    "C104_stator",
    "C104_rotor",
    "C104_magnets_refuted"
   ],
   "note": "Net current zero for all parameters: C104_net_current; pole currents of groups of twelve: C104_phases. Magnetisation zero for every even number of magnets from four on; false otherwise (C104_magnets_refuted): two magnets reinforce each other, an odd number n leaves that of one magnet over cos(pi/n) (C104_magnets). Seeds: inside exactly if the middle radius is below the chord of the outer radius (C104_seeds), so not for wide windings. Symmetry, radii and opening angles of the stator, the edges it shares with the coil sides: C104_stator; the magnets on the rotor: C104_rotor. Completes exactly if both numbers of poles are not zero (C104_calls). That the drawing is accepted is not proved. Exact arithmetic."
  },
  {
   "property": "C105",
   "status": "proved",
   "theorems": [
    "C105_points",
    "C105_itself",
    "C105_segments",
    "C105_circles",
    "C105_segment_equal",
    "C105_segment_length",
    "C105_circle_equal",
    "C105_dot",
    "C105_orientation",
    "C105_orientation_limit",
    "C105_start",
    "C105_direction",
    "C105_direction_limit"
   ],
   "note": "C105_points, C105_itself, C105_segments, C105_circles, C105_dot, C105_start for all doubles; C105_orientation and C105_direction below 2^400. Beyond, both fail by overflow: C105_orientation_limit, C105_direction_limit. pow (x, 2) is taken to be x * x. NaN payloads are not modelled. The compiler flags of the repository (-O3 -mavx, CMakeLists.txt 8-9) allow neither reassociation nor fused multiply-add; with such flags the claims for products of sums are not covered."
  },
  {
   "property": "C106",
   "status": "proved",
   "theorems": [
    "C106_norms",
    "C106_lengths",
    "C106_feature_size",
    "C106_power",
    "C106_comparison",
    "C106_distance_finite",
    "C106_limits"
   ],
   "note": "C106_norms, C106_lengths, C106_feature_size, C106_power, C106_comparison, C106_distance_finite. A norm can be zero for a vector that is not, and infinite for a finite one: C106_limits."
  },
  {
   "property": "C107",
   "status": "proved",
   "theorems": [
    "C107_dot",
    "C107_norm",
    "C107_distance",
    "C107_points_equal",
    "C107_orientation",
    "C107_orientation_same",
    "C107_triangle",
    "C107_contains",
    "C107_intersect",
    "C107_grid",
    "C107_grid_contains",
    "C107_integers_are_doubles",
    "C107_orientation_limit"
   ],
   "note": "C107_dot, C107_norm, C107_distance, C107_points_equal, C107_orientation, C107_orientation_same, C107_triangle, C107_contains, C107_intersect, C107_grid, C107_grid_contains. Beyond 25 bits three points with integer coordinates and turn 1 are called collinear: C107_orientation_limit. The sum is that of the loop in order, as std::inner_product; pow (x, 2) is taken to be x * x."
  },
  {
   "property": "C108",
   "status": "proved",
   "theorems": [
    "C108_order",
    "C108_rounding"
   ],
   "note": "C108_order, C108_rounding. Overflow is excluded by asking that the entry of the result is finite."
  },
  {
   "property": "C109",
   "status": "proved",
   "theorems": [
    "C109_constants",
    "C109_sign",
    "C109_adaptive",
    "C109_range",
    "C109_underflow_refuted",
    "C109_noexact_refuted"
   ],
   "note": "C109_constants, C109_sign, C109_adaptive, C109_range; the limits of the range are shown by C109_underflow_refuted and C109_noexact_refuted. The adaptive stage is the subject of C111 and C112."
  },
  {
   "property": "C110",
   "status": "proved",
   "theorems": [
    "C110_meaning",
    "C110_sign",
    "C110_inside"
   ],
   "note": "C110_sign, C110_meaning, C110_inside. The adaptive stage itself (incircleadapt) is not modelled."
  },
  {
   "property": "C111",
   "status": "partial",
   "theorems": [
    "C111_overrun",
    "C111_padded",
    "C111_outcomes",
    "C111_refuted"
   ],
   "note": "False of the code: C111_refuted gives three points in line for which the test reaches the last stage and reads past the end of a local array; C111_overrun shows that the sum of two expansions always does so when the arrays hold just their components, C111_outcomes that the stage otherwise returns a number. C111_padded proves that one more readable cell suffices, that its content has no influence, and that the result never has more components than the two summed."
  },
  {
   "property": "C112",
   "status": "proved",
   "theorems": [
    "C112_sum",
    "C112_difference",
    "C112_fast_sum",
    "C112_product",
    "C112_four",
    "C112_expansions",
    "C112_determinant",
    "C112_fast_sum_refuted"
   ],
   "note": "C112_sum, C112_difference, C112_fast_sum, C112_product, C112_four, C112_expansions (arrays with one more readable cell, see C111), C112_determinant; C112_fast_sum_refuted shows that the order of the arguments of the short sum matters. That the components keep an order under repeated sums, and the sign of the last component, are not claimed (C113 treats the stages before the last one)."
  },
  {
   "property": "C113",
   "status": "proved",
   "theorems": [
    "C113_sign",
    "C113_in_line",
    "C113_order",
    "C113_outcomes",
    "C113_exact_differences",
    "C113_integers"
   ],
   "note": "C113_sign, C113_in_line, C113_order (all exits: first stage, second stage, exact differences, third stage), C113_exact_differences and C113_integers (the test returns a number), C113_outcomes (otherwise it overruns an array, which is C111: the last stage never returns in the model). C113_cases shows points decided at each of the later exits."
  },
  {
   "property": "C114",
   "status": "proved",
   "theorems": [
    "C114_inside",
    "C114_empty",
    "C114_exact",
    "C114_three",
    "C114_close_refuted"
   ],
   "note": "C114_inside (for every scalar type), C114_empty (the only way outside), C114_exact, C114_three (the product of three numbers, without a condition on the distance), C114_close_refuted (2^53 and 3/2 times 1), C114_cases. In the source only incircleadapt and orient3dadapt call this routine, which are not modelled; that the expansions passed there have the required distance is not proved."
  }
 ]
}