{
 "C01": {
  "note": "Every history of accesses, every value type, every hash order; reachable matrices are valid."
 },
 "C02": {
  "note": "All sizes and patterns, any value type."
 },
 "C03": {
  "status": "partial",
  "note": "The claim is refuted: a missing diagonal entry makes the conversion write out of bounds (witness), or makes nnz wrap to about 2^32. C03_csr_trichotomy gives the exact condition."
 },
 "C04": {
  "note": "Exact arithmetic."
 },
 "C05": {
  "note": "Exact arithmetic."
 },
 "C06": {
  "note": "For every scalar type, hence also binary64."
 },
 "C07": {
  "note": "Exact arithmetic."
 },
 "C14": {
  "note": "Exact arithmetic; an out-of-range node is undefined behaviour."
 },
 "C15": {
  "note": "Order of conditions in exact arithmetic; hash order for every scalar type."
 },
 "C16": {
  "status": "partial",
  "note": "Refuted: the other right-hand sides keep the first value. C16_reset_exact gives the exact condition, C16_reset_solutions what is solved instead."
 },
 "C17": {
  "status": "partial",
  "note": "Proved for every program without self-addition; e += e and e -= e on an expression with terms is undefined behaviour (refuted part)."
 },
 "C18": {
  "note": "Exact arithmetic, any evaluation history."
 },
 "C08": {
  "note": "Exact arithmetic, all sizes >= 1 and patterns; any omega for the matrix equation."
 },
 "C09": {
  "status": "partial",
  "note": "Proved for every scalar type and every size except the SSOR preconditioner on the empty system, where m-1 wraps in uint32_t and the claim is refuted."
 },
 "C10": {
  "note": "Exact arithmetic, all four solvers; also the converse for runs that hit the limit. |maxError| because the code compares squares."
 },
 "C11": {
  "status": "partial",
  "note": "Refuted for the Jacobi solver started at the exact solution (0/0, NaN in binary64). Proved for CG, SSOR (0<omega<2), Jacobi with b<>Ax0, and Cholesky when its factor exists and step lengths stay above DBL_EPSILON."
 },
 "C12": {
  "note": "Exact arithmetic; stated through the iteration limit. No clamp hypothesis needed: for Jacobi and SSOR the clamp provably cannot fire, for CG it only shortens the step. Cholesky under the usability condition."
 },
 "C13": {
  "status": "partial",
  "note": "Pattern, symmetry and positivity proved. Completion on SPD matrices refuted by a 4x4 witness (pivot -1), NaN solution in binary64. Proved for every SPD matrix whose pattern elimination does not leave (fully stored, tridiagonal, ...): it completes and leaves the reciprocals of the diagonal of the one Cholesky factor (C13_completes_closed, exact arithmetic)."
 },
 "C55": {
  "note": "Exact arithmetic. Jacobi needs b<>Ax0 (see C11); Cholesky needs the usability condition; plain CG needs the clamp not to fire, as stated."
 },
 "C56": {
  "status": "partial",
  "note": "Refuted: an inverse-factor entry that is exactly zero is skipped (sum != 0) and keeps the un-inverted value. C56_inverse_iff: on a fully stored SPD matrix the preconditioner is the inverse for every r exactly when no position above the diagonal vanishes in the inverse of the Cholesky factor but not in the factor; then the solver is usable without assumptions on the computed factor (C56_usable) and stops after its first iteration at the solution for every right-hand side, start and tolerance (C56_one_iteration). Exact arithmetic."
 },
 "C19": {
  "note": "Exact arithmetic."
 },
 "C20": {
  "status": "partial",
  "note": "Refuted: == is not transitive, and the hash respects it only if std::hash<double> is constant; an infinite vector differs from itself in binary64. Reflexivity and symmetry proved, chains bounded."
 },
 "C21": {
  "status": "partial",
  "note": "Exact for every triangle of double area at least 3*2^-52. The degenerate half is refuted (collinear triangle accepts far points; nanometre triangle accepts outside points)."
 },
 "C22": {
  "note": "Exact arithmetic. Boundary, even-odd rule, start vertex, direction, translation, rectangles, triangles, bounding box; the tolerance overload for polygons without zero-length edges."
 },
 "C23": {
  "status": "partial",
  "note": "Proved for every segment with distinct endpoints; refuted for coinciding endpoints (0/0, NaN)."
 },
 "C24": {
  "status": "partial",
  "note": "Exact except when an endpoint of the first segment lies in the interior of the second: there the answer depends on direction and order (refuted). C24_touching_exact says when such a touch is missed. Coordinates coarse relative to 1e-100; zero-length first segment refuted."
 },
 "C25": {
  "status": "partial",
  "note": "Refuted: getEnclosingCircle uses the centroid with a radius measured from the origin, also with the factor 1.5 used by the simulation; getMinimumEnclosingCircle misses a point of a 5-point set. Proved: twice the radius encloses, centred drawings, up to 3 points."
 },
 "C26": {
  "note": "Exact arithmetic; collinear points give a division by zero."
 },
 "C51": {
  "status": "partial",
  "note": "Proved for a<b; a constant field (vmin = vmax) gives 0/0 in map and val2jet (refuted part), NaN passes through limit."
 },
 "C27": {
  "status": "partial",
  "note": "Well-formedness and memory safety for every scalar type and history; outlines in exact arithmetic. Refuted for the empty vertex list: drawPolygon computes 0 - 1 in uint32_t and reads out of bounds."
 },
 "C28": {
  "status": "partial",
  "note": "Refuted: two rectangles forming a cross are accepted, because the bounding-box prefilter asks for an end of the new edge in the box of the stored segment. Proved: rejection when the prefilter passes, for any edge of any outline; and every rejection is justified."
 },
 "C29": {
  "status": "partial",
  "note": "Refuted: points and segments drawn before the exception stay. Proved: nothing else changes and nothing is removed."
 },
 "C30": {
  "status": "partial",
  "note": "Refuted by an edge shorter than the tolerance and by drawPoint. Proved for all histories of outlines whose edges are at least the tolerance long (twice it for segments with two different ends)."
 },
 "C31": {
  "status": "partial",
  "note": "Faithful, stable, in bounds for every property type; equal properties get equal ids if operator== is an equivalence. Refuted for the tolerance comparison of magnetisations."
 },
 "C32": {
  "status": "partial",
  "note": "Exact arithmetic as claimed; the IEEE way back is refuted."
 },
 "C33": {
  "status": "partial",
  "note": "Refuted: with two or more seeds in a polygon the default property is returned, whatever the nesting. Proved: exact case analysis."
 },
 "C34": {
  "note": "Every scalar type, every outcome."
 },
 "C53": {
  "status": "partial",
  "note": "Containment and the plot transforms proved; minimality refuted; no vertices or coincident vertices divide by zero."
 },
 "C57": {
  "note": "Exact arithmetic; translation invariance is C32_answers_unchanged."
 },
 "C58": {
  "note": "Exact arithmetic for addRefiningPoints, every scalar type for refineMeshAroundMagnets."
 },
 "C35": {
  "status": "partial",
  "note": "Refuted by a conforming fan of 19 triangles around one vertex. Proved: the assembly of both problems stays in bounds exactly when no vertex has more than 18 triangles (9 for the cotangent weights), for every scalar type."
 },
 "C36": {
  "status": "proved",
  "note": "Energy, row sums, semidefiniteness and symmetry over exact reals, for meshes with at most 18 triangles per vertex and no degenerate triangle. Rounding is not modelled here."
 },
 "C37": {
  "status": "proved",
  "note": "Total load for drawings without magnets (the magnets are C50); energy and row sums of the magnetostatic matrix for every mu."
 },
 "C38": {
  "status": "proved",
  "note": "Exact reals. computeCurl returns (-dA/dy, dA/dx), minus the usual curl; its size and fluxes are those of the field."
 },
 "C39": {
  "status": "partial",
  "note": "Refuted: a vertex at the origin gets no finite position, and off centre the clamp is measured from the wrong point. Proved: ray, product of distances, fixed circle, involution, only unmarked vertices move."
 },
 "C40": {
  "status": "partial",
  "note": "Refuted: the barycentre comes back in the frame of the mesh instead of the user's, and triangles count as point masses in the inertia moment. Proved: formulas, half-plane containment, parallel axes, independence of numbering, translation within the frame of the mesh."
 },
 "C49": {
  "status": "partial",
  "note": "Refuted by a three-vertex mesh with a vertex at the origin. Proved when three vertices differ from the origin; the boundary values hold exactly."
 },
 "C50": {
  "status": "partial",
  "note": "Refuted: a magnet that no other polygon surrounds is counted once per vertex, and two labels in one magnet count it twice; each end of a mesh edge gets the whole edge current. Proved: the exact load formula, zero net current, single counting for one label inside other polygons."
 },
 "C59": {
  "status": "proved",
  "note": "Exact reals; for the magnetostatic problem with the three farthest vertices held and every positive mu."
 },
 "C60": {
  "status": "partial",
  "note": "Refuted: an unmatched boundary vertex is undefined behaviour. Proved: what is added, and success exactly when every used boundary vertex has a partner."
 },
 "C62": {
  "status": "proved",
  "note": "Exact reals."
 },
 "C41": {
  "status": "partial",
  "note": "False as stated: an induction between the last two points of the curve reads past the end of the set (C41_refuted; C41_binary64_iron_refuted for the library's own iron curve). Proved exactly: undefined iff the induction lies there, in any arithmetic; otherwise the slope of a known segment, which is positive for increasing curves."
 },
 "C42": {
  "status": "partial",
  "note": "Positivity over any sequence of updates is proved. The upper bound is false as stated (C42_between_refuted): vacuum*residual^2 is added, and the first residual is 1e10. C42_bounds_partial gives the bound that holds."
 },
 "C64": {
  "status": "partial",
  "note": "False (C64_refuted): inside the curve the slope of the following segment is returned. Holds for curves proportional to H (C64_proportional_curve)."
 },
 "C43": {
  "status": "partial",
  "note": "Proved in exact arithmetic for every mesh and call history, with the exact meaning of repeated calls: the addressed node has the last value, but its neighbours keep the first one (their right-hand side is not corrected). In binary64 the squared distance can underflow or overflow (C43_binary64_refuted)."
 },
 "C44": {
  "status": "proved",
  "note": ""
 },
 "C45": {
  "status": "partial",
  "note": "False as stated (C45_refuted): the conductance is 2/R, a second interconnection between the same nodes (or one between neighbours of a layer) overwrites the coupling, one from a node to itself makes the diagonal negative. Proved: all entries and row sums for any list of interconnections; conservation and energy when they join different layers and different pairs of nodes."
 },
 "C46": {
  "status": "proved",
  "note": "Exact arithmetic; a voltage vector shorter than the number of nodes is an out-of-bounds read (C46_short_vector)."
 },
 "C67": {
  "status": "proved",
  "note": "Exact arithmetic. The 32-bit counters of the matrix are assumed not to overflow; C67_fits shows this up to 92681 nodes. For several layers the interconnections join different layers and different pairs of nodes (otherwise see C45)."
 },
 "C65": {
  "status": "partial",
  "note": "Proved for linear materials (success, convergence, residual below 1e-6 with the materials' permeabilities). For non-linear materials: the only failure is the undefined curve look-up, permeabilities stay positive, and reported convergence means a residual below 1e-7 for the permeabilities last used. That these are the curves' permeabilities is false: C65_reported_convergence_refuted (binary64, the library's iron) shows convergence reported in iteration 1 with a permeability above 1e13, because the update mixes in the artificial first residual 1e10 (C65_early_convergence gives the exact lower bound for any problem)."
 },
 "C47": {
  "status": "partial",
  "note": "False of the code. Proved: the matrix after elimination is the same for all orders (C47_matrix); the right-hand sides reached are exactly those that keep an arbitrary choice of the contributions to held nodes (C47_outcomes); independence of the order holds iff no entry couples a body node with a held node of a higher number (C47_independent_iff, C47_weights); under a stronger condition the solution takes the prescribed values (C47_prescribed_partial). Refuted: prescribed values (C47_prescribed_refuted, also with one order), order independence of the force (C47_refuted, binary64). C47_accuracy: the weights come from at most 100 solver steps from zero, and when the solver stops earlier the residual is below 1e-100."
 },
 "C48": {
  "status": "partial",
  "note": "False for planar triangulations. Proved: on a closed surface, every neighbour read is the triangle behind the side and the error values are those of the field jumps (C48_closed). A side with one or more than two triangles makes the computation undefined (C48_open), which happens for every non-empty conforming plane triangulation (C48_planar_refuted)."
 },
 "C68": {
  "status": "partial",
  "note": "False of the code. A value is returned only when exactly one outline encloses the body (C68_exactly_one, any scalar type); with a second outline the removal loop reads past the end (C68_refuted, binary64). C68_otherwise says what happens in every other case, with exact arithmetic: an error when no outline contains the point; undefined behaviour without a surrounding outline or with several of which one contains no other; the error after 101 passes when each of several contains another."
 },
 "C69": {
  "status": "partial",
  "note": "False of the code. Where the field is zero around a free vertex a zero pivot is divided by (C69_vanishing, C69_tables, exact arithmetic); in binary64 the force is NaN for the zero field and for a uniform field with equal error estimates (C69_refuted)."
 },
 "C70": {
  "status": "partial",
  "note": "False of the code. The integral over the shell vanishes for every triangulation when the weights agree along each edge of the rim (C70_uniform_partial), but the nodes held at zero lie outside the shell (C70_rim_not_held); in binary64 the force of a uniform field is above 1000 (C70_refuted)."
 },
 "C71": {
  "status": "partial",
  "note": "False of the code. For given weights the integral is quadratic (C71_integral_partial); the weights depend on the sign and size of the field through the signed error estimate, and the force changes (C71_refuted, binary64)."
 },
 "C72": {
  "status": "proved",
  "note": "Exact arithmetic. The tables of adjacent triangles are those the code builds."
 },
 "C73": {
  "status": "proved",
  "note": "Exact arithmetic; mu0 is a parameter."
 },
 "C74": {
  "status": "partial",
  "note": "False of the code: the weights are chosen from the x component of the force density alone (C72_force). The density itself turns (C74_density_partial); in binary64 a quarter turn changes the force (C74_refuted)."
 },
 "C75": {
  "status": "partial",
  "note": "False of the code: each centre, and the force, has its own weights. For given weights it holds (C75_moment_partial); in binary64 the torque rises where it must fall (C75_refuted)."
 },
 "C54": {
  "status": "partial",
  "note": "Proved for every interleaving, spurious wakeups included: tasks start in push order, each by one worker, nothing is lost (C54_fifo, C54_once), no reachable state is stuck before Stop returns and every execution is finite (C54_no_deadlock, C54_ends), and with at least one worker Stop returns with all tasks ended (C54_stop_partial). Refuted for a pool of zero workers, which the default argument can give: Stop returns with no task run (C54_refuted). Tasks themselves are assumed to terminate."
 },
 "C52": {
  "status": "partial",
  "note": "Refuted: the compiler-generated copy operations copy the pointers, so copying a meshed object and destroying both frees every buffer twice, in every state (C52_copy, C52_refuted), a surviving copy reads freed memory (C52_use_refuted), and meshing twice leaks (C52_leak_refuted). Proved for all histories that copy meshes only before they are meshed, as the constructors and vectors of the library do: no double free and no use after free (C52_safe_partial), and if nothing is meshed twice every buffer has been freed exactly once at the end (C52_freed_partial)."
 },
 "C66": {
  "status": "partial",
  "note": "Proved in exact arithmetic except the last clause: which points are drawn (C66_points), their distances (C66_clear) and symmetry (C66_symmetric). 'No point is drawn twice' is refuted: an interconnection that ends on a segment or corner gets both rings collapsed onto its end, 20 more copies of one point (C66_on_segment, C66_refuted)."
 },
 "C76": {
  "status": "proved",
  "note": "In exact arithmetic."
 },
 "C77": {
  "status": "partial",
  "note": "Wrong number or types: proved for every method (C77_*_types, C77_new). Unchanged after an exception: proved for the drawing calls (C77_unchanged); for interconnections except that a layer number outside 64 bits is stored before the exception (C77_link_unchanged, C77_link_stored). 'No call ends the interpreter' is refuted (C77_refuted): too short coordinate lists, layers that do not exist and C++ exceptions of the drawing; C77_rectangle_crash, C77_region_crash, C77_polygon_crash and C77_link_crash say exactly when, C77_voltage_crash and C77_solve_crash cover an empty System and use before generate_system."
 },
 "C78": {
  "status": "partial",
  "note": "Proved as equivalences for all six calls and for generate_system (C78_generate, with the mesher as a parameter that is given the area and the angle). 'Ints are accepted for every number' is refuted for the conductivity of draw_region (C78_ints_refuted). add_interconnection does not look at the layers: any 64-bit numbers are accepted, and generate_system then never returns a system (C77_link_layers)."
 },
 "C79": {
  "status": "partial",
  "note": "Proved for vertices, triangles and voltages (C79_vertices, C79_triangles, C79_solve), with the exact condition under which rows stay unset (a system with more unknowns than nodes). The first entry of a power row is the number of the triangle, not the layer (C79_power, C79_power_refuted). C79_session: in exact arithmetic, set_voltage calls and solve on well-formed layers return one complete row per node."
 },
 "C80": {
  "status": "proved",
  "note": "Holds for every scalar type; when a region exists is C68."
 },
 "C61": {
  "status": "partial",
  "note": "Proved for nonnegative angles and areas whose printed length fits (C61_options, C61_usual: angles below 100 and areas from 1e-17 up to 1e15). C61_buffer: the buffer of 42 characters is overrun exactly when the angle and the integer part of the area have more than 17 characters together; C61_small: an area printed as zero ends the process; C61_negative_angle: a negative angle asks for 20 degrees; C61_negative_area: a negative area lifts the limit. C61_refuted gives one case of each, and infinity and NaN."
 },
 "C63": {
  "status": "partial",
  "note": "C63_setup: holds for every drawing inside the inscribed circle of the polygon, with the exact points, segments, regions; C63_usual gives sizes for which that is so (centroid within a quarter of the extent from the origin, elements between 1e-8 and 2 times the extent) and adds that the air seed is in no outline; C63_outside and C63_same_boundary: the outside gets the same boundary points; C63_refined: refinement only adds points. Refuted in general: a drawing whose centroid is far from the origin can stick out of the boundary (C63_enclosed_refuted) or contain the air seed (C63_seed_refuted), and for large elements there is no boundary at all (C63_no_boundary)."
 },
 "C81": {
  "status": "proved",
  "note": "C81_exact gives the complete result of the call; C81_drawn: the hypotheses hold for drawings made from outlines and every added point is accounted for. Exact arithmetic, with an exact sine, cosine and arc tangent; that the containment test is right is C22, the feature size C57. In binary64 the call can fail: C81_ieee_refuted moves a rectangle beyond the largest double, after which its corners do not compare equal to themselves and the call throws."
 },
 "C82": {
  "status": "partial",
  "note": "C82_exact describes every outcome: which outlines count, the candidates of each edge in order, which are taken, and that the call ends early exactly when the feature size is zero or the number of steps does not fit into uint32_t; C82_clear: every added point is in a magnet and clear of what was there; C82_no_magnet. That the call completes is refuted: on every rectangular magnet the first edge puts a point onto the adjacent side, the feature size becomes zero and the next edge divides by it (C82_rectangle_refuted); in binary64 the feature size becomes about 1e-16 and the conversion of the number of steps to uint32_t is undefined (C82_ieee_refuted)."
 },
 "C83": {
  "status": "proved",
  "note": "C83_barycentre, C83_area, C83_split, C83_inside, C83_range. abs is read as the absolute value of a double."
 },
 "C84": {
  "status": "partial",
  "note": "C84_input, C84_sizes: the arrays; C84_removed, C84_material, C84_uniform, C84_drawing: which triangles are removed and which material each of the others gets. Two parts are false of the code: a part without a seed gets material number 0, the first one ever drawn (C84_drawing, C84_default_refuted), and without any seed the array of attributes is a null pointer that assembling reads (C84_no_seed); a node whose triangles are all removed stays in the mesh and the conduction problem is refused (C84_orphan). Triangulation, location of seeds and the later refinement are not modelled."
 },
 "C85": {
  "status": "partial",
  "note": "False: C85_same_refuted. C85_entries says exactly what the matrix contains: a side between two triangles gets the sum of the two cotangents (every neighbour is listed twice, which undoes the factor one half), with positive sign and without conductivity or depth; sides on the border get nothing; rows add up to zero. C85_against_fem compares both matrices side by side; C85_inner_vertex: with one conductivity the equation of an inner vertex is the finite element equation times a constant. Exact arithmetic with the true sine, cosine and arc tangent. More than nine triangles at a vertex: C35."
 },
 "C86": {
  "status": "partial",
  "note": "The constructor part is proved (C86_new). The part about results is false (C86_refuted): PyTuple_Pack takes its own references, and the references of the code are never given up. C86_solve, C86_generate: dropping the result frees only the outermost tuple; the exact number of references lost is given, as is a lower bound on the objects lost (exact for all but the integers that CPython shares). C86_history: any sequence of calls loses the sum, at least three objects per call. The System object and its matrix are among what is lost."
 },
 "C87": {
  "status": "proved",
  "note": "C87_superposition, C87_scale, C87_similar, over the reals, for calls holding different nodes. Solution here means exact solution of the system that generateSystem and setVoltage leave; how close solve comes is C67. Calls that hold one node twice are left to C43."
 },
 "C88": {
  "status": "partial",
  "note": "False in general (C88_refuted): one triangle with an obtuse angle, 0 V and 1 V imposed, -0.6 V at the third node. Proved when for every side the opposite cotangents weighted with the conductivities do not add up to less than zero (C88_between), in particular without obtuse angles (C88_acute). The mesher is asked for a smallest angle only, so obtuse angles occur. Solution here means exact solution of the system that generateSystem and setVoltage leave; how close solve comes is C67. Calls that hold one node twice are left to C43."
 },
 "C89": {
  "status": "proved",
  "note": "C89_affine: the affine function solves the system, and with positive conductivity and depth and every node linked to a held one it is the only solution. Solution here means exact solution of the system that generateSystem and setVoltage leave; how close solve comes is C67. Calls that hold one node twice are left to C43."
 },
 "C90": {
  "status": "proved",
  "note": "C90_least, C90_raise, C90_currents; power and currents are stated with the gradients on the triangles, not with the matrix. Solution here means exact solution of the system that generateSystem and setVoltage leave; how close solve comes is C67. Calls that hold one node twice are left to C43."
 },
 "C91": {
  "status": "partial",
  "note": "C91_superposition, C91_permeability, C91_similar, over the reals. Superposition needs every magnetisation involved to be zero or at least 1e-9 long: smaller ones compare equal to zero and are dropped (C91_refuted: halving a magnet below that does not halve its potential, it removes it). Potential here means exact solution of the assembled system with the three outermost nodes held, for given permeabilities: linear materials, or one step of the nonlinear iteration; how close solve comes is C67."
 },
 "C92": {
  "status": "proved",
  "note": "C92_reciprocity, C92_energy; flux linkage and energy are integrals over the triangles, stated without the matrix. Potential here means exact solution of the assembled system with the three outermost nodes held, for given permeabilities: linear materials, or one step of the nonlinear iteration; how close solve comes is C67."
 },
 "C93": {
  "status": "proved",
  "note": "C93_least, C93_raise. Potential here means exact solution of the assembled system with the three outermost nodes held, for given permeabilities: linear materials, or one step of the nonlinear iteration; how close solve comes is C67."
 },
 "C94": {
  "status": "partial",
  "note": "False in general (C94_refuted): a conforming mesh of three triangles, one with an obtuse angle. Proved when for every side the opposite cotangents over the permeabilities do not add up to less than zero (C94_sign, C94_monotone), in particular without obtuse angles (C94_acute). Potential here means exact solution of the assembled system with the three outermost nodes held, for given permeabilities: linear materials, or one step of the nonlinear iteration; how close solve comes is C67."
 },
 "C95": {
  "status": "proved",
  "note": "C95_superposition (any interconnections, also several between the same nodes), C95_scale (interconnections between different layers, at most one between two nodes). Voltages here means exact solution of the assembled system; how close solve comes is C67. Exact arithmetic."
 },
 "C96": {
  "status": "partial",
  "note": "Proved when in every layer the cotangents opposite to each side times conductivity do not add up to less than zero (C96_between), in particular without obtuse angles (C96_acute), with at most one interconnection between two nodes. False otherwise: C96_refuted has two interconnections between the same nodes and 1 V everywhere imposed, and the second layer is at 1/2 V; obtuse angles are C88_refuted. Voltages here means exact solution of the assembled system; how close solve comes is C67. Exact arithmetic."
 },
 "C97": {
  "status": "partial",
  "note": "All of it is proved with current 2 (V1 - V2)/R and power 2 (V1 - V2)^2/R instead (C97_least, C97_raise, C97_currents): the assembly counts an interconnection of resistance R as the conductance 2/R. With (V1 - V2)/R the currents do not balance (C97_refuted). Voltages here means exact solution of the assembled system; how close solve comes is C67. Exact arithmetic."
 },
 "C98": {
  "status": "proved",
  "note": "C98_apart, C98_single. Voltages here means exact solution of the assembled system; how close solve comes is C67. Exact arithmetic."
 },
 "C99": {
  "status": "partial",
  "note": "Zero without sources is proved exactly (C99_no_voltage, C99_no_voltage_layers, C99_no_source_linear; with curves of materials C99_no_source_curves, where running off the end of a table is undefined behaviour and each material with a curve is left with a permeability of at least 1e20 times that of vacuum). The imposed voltages are returned within 1e-12 V, or 1e-7 V for joined layers (C99_imposed, C99_imposed_layers). The scaling is false: the tolerance is absolute, so for every problem there is a size of the voltages below which solve returns zero everywhere, at the electrodes too (C99_weak), while larger voltages are returned (C99_refuted). Exact arithmetic."
 },
 "C100": {
  "status": "partial",
  "note": "Without refinement: proved for a single conductor and for layers without interconnections, whose drawing a call leaves alone (C100_unlinked). False otherwise. Magnetostatics: the boundary of each call stays in the drawing, so call number k gets a boundary of (3/2)^k times the extent around all earlier ones, and from the second call on the centre is the origin although the drawing stays where the first call moved it (C100_grows, any number of calls, for the sizes of C63_usual); C100_refuted: a point the user drew is no longer found at its place minus the centre. Layers: each call draws all points for the interconnections once more in the same places (C100_layers). Exact arithmetic."
 },
 "C101": {
  "status": "proved",
  "note": "C101_accepted, in exact arithmetic. Two vertices are the same or at least 1e-9 apart; two edges without a common end either have no end in the other's bounding box or share no point (with the granularity of C24)."
 },
 "C102": {
  "status": "partial",
  "note": "Acceptance and seeds: C102_design. Current: false, C102_current_refuted; each winding carries 250, as the density is 1000 / (2 w h) and the area w h / 2 (C102_current). Element size: false, 0.001 is converted to the bool refine and the mesher gets area 1 (C102_size). Optimisation: the height never changes; for a force affine in the design n iterations raise it by 1000 n times the squared slopes in the two other parameters (C102_descent); for a quadratic force the iteration aims 0.15 below the extremum and multiplies the distance by 1 + 2000 q each time, so it runs away from every minimum and from maxima with q below -1/1000 (C102_quadratic); nothing is proved for other dependences. Exact arithmetic; meshing, solving and the force integral are a function of the calls and the mesh parameters."
 },
 "C103": {
  "status": "proved",
  "note": "C103_shape, C103_accepted (centres more than two sides apart, half side at least 1e-9), C103_turn (also body by body), C103_conserved. Exact arithmetic; meshing, solving and the stress integral are an arbitrary function of the drawing."
 },
 "C104": {
  "status": "partial",
  "note": "Net current zero for all parameters: C104_net_current; pole currents of groups of twelve: C104_phases. Magnetisation zero for every even number of magnets from four on; false otherwise (C104_magnets_refuted): two magnets reinforce each other, an odd number n leaves that of one magnet over cos(pi/n) (C104_magnets). Seeds: inside exactly if the middle radius is below the chord of the outer radius (C104_seeds), so not for wide windings. Symmetry, radii and opening angles of the stator, the edges it shares with the coil sides: C104_stator; the magnets on the rotor: C104_rotor. Completes exactly if both numbers of poles are not zero (C104_calls). That the drawing is accepted is not proved. Exact arithmetic."
 },
 "C105": {
  "status": "proved",
  "note": "C105_points, C105_itself, C105_segments, C105_circles, C105_dot, C105_start for all doubles; C105_orientation and C105_direction below 2^400. Beyond, both fail by overflow: C105_orientation_limit, C105_direction_limit. pow (x, 2) is taken to be x * x. NaN payloads are not modelled. The compiler flags of the repository (-O3 -mavx, CMakeLists.txt 8-9) allow neither reassociation nor fused multiply-add; with such flags the claims for products of sums are not covered."
 },
 "C106": {
  "status": "proved",
  "note": "C106_norms, C106_lengths, C106_feature_size, C106_power, C106_comparison, C106_distance_finite. A norm can be zero for a vector that is not, and infinite for a finite one: C106_limits."
 },
 "C107": {
  "status": "proved",
  "note": "C107_dot, C107_norm, C107_distance, C107_points_equal, C107_orientation, C107_orientation_same, C107_triangle, C107_contains, C107_intersect, C107_grid, C107_grid_contains. Beyond 25 bits three points with integer coordinates and turn 1 are called collinear: C107_orientation_limit. The sum is that of the loop in order, as std::inner_product; pow (x, 2) is taken to be x * x."
 },
 "C108": {
  "status": "proved",
  "note": "C108_order, C108_rounding. Overflow is excluded by asking that the entry of the result is finite."
 },
 "C109": {
  "status": "proved",
  "note": "C109_constants, C109_sign, C109_adaptive, C109_range; the limits of the range are shown by C109_underflow_refuted and C109_noexact_refuted. The adaptive stage is the subject of C111 and C112."
 },
 "C110": {
  "status": "proved",
  "note": "C110_sign, C110_meaning, C110_inside. The adaptive stage itself (incircleadapt) is not modelled."
 },
 "C111": {
  "status": "partial",
  "note": "False of the code: C111_refuted gives three points in line for which the test reaches the last stage and reads past the end of a local array; C111_overrun shows that the sum of two expansions always does so when the arrays hold just their components, C111_outcomes that the stage otherwise returns a number. C111_padded proves that one more readable cell suffices, that its content has no influence, and that the result never has more components than the two summed."
 },
 "C112": {
  "status": "proved",
  "note": "C112_sum, C112_difference, C112_fast_sum, C112_product, C112_four, C112_expansions (arrays with one more readable cell, see C111), C112_determinant; C112_fast_sum_refuted shows that the order of the arguments of the short sum matters. That the components keep an order under repeated sums, and the sign of the last component, are not claimed (C113 treats the stages before the last one)."
 },
 "C113": {
  "status": "proved",
  "note": "C113_sign, C113_in_line, C113_order (all exits: first stage, second stage, exact differences, third stage), C113_exact_differences and C113_integers (the test returns a number), C113_outcomes (otherwise it overruns an array, which is C111: the last stage never returns in the model). C113_cases shows points decided at each of the later exits."
 },
 "C114": {
  "status": "proved",
  "note": "C114_inside (for every scalar type), C114_empty (the only way outside), C114_exact, C114_three (the product of three numbers, without a condition on the distance), C114_close_refuted (2^53 and 3/2 times 1), C114_cases. In the source only incircleadapt and orient3dadapt call this routine, which are not modelled; that the expansions passed there have the required distance is not proved."
 }
}