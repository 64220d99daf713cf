# Formal model of nikfemm: design

The code under study is `/repo` (nikfemm, C++). It is read as text only: it is neither built nor run.
The model and the proofs are Coq 8.16.1 files in `rocq/theories` (logical name `Verif`).
`properties.jsonl` lists the properties, `MANIFEST.json` maps each to its theorems.

## 1. How the code is modelled

* **Outcomes.** Every modelled function returns `res A` = `Ok a | Throw | UB | NonFin`.
  `Throw` is a C++ exception (`nexit`, `nassert`, `throw`), `UB` is undefined behaviour
  (out-of-bounds access, read of an uninitialised value, dereference of `end()`, iterator invalidation,
  double free), `NonFin` is a division by zero or the root of a negative number in exact arithmetic
  (the C++ program would go on with inf/NaN). Nothing is totalised: an out-of-range `get` is `UB`.
* **Scalars.** Functions are generic in a record `Ops` of scalar operations. Two instances:
  `ROps` (Coq's real numbers: "exact arithmetic") and `FOps` (IEEE binary64 from the standard library's
  `SpecFloat`, computable and axiom free). Structural theorems are proved for every `Ops`, so they cover the
  floating point program; algebraic theorems are proved for `ROps`; refutations about NaN use `FOps`; C105 to C107 are
  theorems about all binary64 numbers; C107 compares both instances, with rounding errors bounded. `FOps` rounds every operation to nearest even: the compiler flags of the repository
  (`lib/nikfemm/CMakeLists.txt` 8-9, `-O3 -mavx`) allow neither reassociation nor fused multiply-add. NaN payloads are not modelled.
* **Integers.** `uint32_t` indices are `nat`; packed 64-bit keys are `N`; the wrap is written where the code can wrap
  (`u32`). Theorems state the size bound under which no wrap occurs.
* **Hash maps.** `unordered_map` is a list of pairs without duplicate keys: the list is the iteration order.
  Theorems quantify over all permutations.
* **Loops.** `for` loops are `forM_up`/`forM_down` folds in the `res` monad; loops with unbounded trip count
  take the program's own iteration limit.
* **External code.** Triangle's triangulation (its option parser, the spreading of materials, the orientation test, the product of an expansion and a number, and the first stage of the incircle test are modelled), OpenCV, logging and the libc trigonometric functions are not modelled.
  A mesh is an arbitrary list of vertices and an arbitrary list of index triples. In the real instance `sin`, `cos`, `exp`,
  `sqrt` are those of Coq's `Reals`.

## 2. Trusted base

* Coq 8.16.1's kernel (with `vm_compute`).
* The axioms of Coq's standard library reported by `Print Assumptions` for each theorem (section 5). They enter through `Reals`
  (`sig_forall_dec`, `sig_not_dec`, functional extensionality) and, where the arc tangent or Flocq is used, `classic`.
* `Round_proofs.v` uses theorems of the Flocq library (the error of a rounded operation). They are checked by the kernel like the rest and add
  no axiom.
* The reading of the C++ text: the correspondence between code and model is by inspection, every definition cites file and lines.

Modelled, function by function:

| code (under `lib/nikfemm/src` unless noted) | model |
|---|---|
| `algebra/` | `AlgebraModel.v`, `SolversModel.v` |
| `geometry/`, `utils/utils.hpp` (scalar helpers, colour map) | `GeometryModel.v`; comparison, hash and length of segments, comparison of circles in `SegmentModel.v` |
| `drawing/drawing.hpp`, `refineMeshAroundMagnets` | `DrawingModel.v` |
| `mesh/mesh.hpp`, assembly in `magnetostatic/mesh.cpp` and `current_density/mesh.cpp` | `MeshModel.v` |
| ownership of the mesh buffers (`mesh/mesh.hpp`) | `OwnModel.v` |
| the option string given to Triangle and `parsecommandline` of `triangle/triangle.cpp` | `SwitchModel.v` |
| the arrays of `Mesh::mesh`, and `carveholes`, `infecthull`, `plague`, `regionplague` of `triangle/triangle.cpp` over an abstract triangulation | `CarveModel.v` |
| `exactinit` and the first stages of `counterclockwise` and `incircle` of `triangle/triangle.cpp` | `PredicateModel.v` |
| the exact arithmetic macros, `estimate`, `fast_expansion_sum_zeroelim` , `counterclockwiseadapt` and the whole orientation test of `triangle/triangle.cpp` | `ExpansionModel.v` |
| `scale_expansion_zeroelim` of `triangle/triangle.cpp` | `ScaleModel.v` |
| `magnetostatic/properties.*`, `updateMu` | `MaterialModel.v` |
| `magnetostatic/simulation.cpp`: `setup` | `SetupModel.v` |
| `magnetostatic/simulation.cpp`: `solve` | `SimModel.v` |
| `magnetostatic/simulation.cpp`: forces, torques, stress integral | `ForceModel.v` |
| `current_density/simulation.cpp`, `multilayer_simulation.cpp` | `LayersModel.v` |
| `python/nikfemm.cpp` | `BindModel.v`; reference counts of the results and of the constructor in `RefModel.v` |
| `examples/mtest/main.cpp`: thread pool | `PoolModel.v` |
| three of the example programs: the drawing calls they make and the design iteration | `ExampleModel.v` |
| `lib/nikfemm/test/unit_tests.cpp`, run on the binary64 model (a test of the model, not a proof) | `UnitTests.v` |

Not modelled:

* rounding, except where a theorem is stated for every scalar type or for `FOps` (C105 to C114 and the counterexamples that name `FOps`). Other "exact arithmetic" theorems say nothing about rounding errors;
* Triangle's meshing itself (only its option parser, the removal and region phase, `carveholes`, `counterclockwise`, `counterclockwiseadapt`, `scale_expansion_zeroelim` and the first, non-adaptive stage of `incircle` are modelled): the mesh it produces is an arbitrary input of the later functions;
* OpenCV windows and drawing calls (only the transforms that compute pixel positions and colours), files, logging, time;
* the C library's `sin`, `cos`, `exp`, `atan2`: parameters of the model, instantiated with the functions of `Reals` in exact arithmetic;
* failing allocations, stack overflow, the C API of Python beyond argument parsing, the lists built and the reference counts of results (not those of arguments, types and exceptions);
* the example programs other than the thread pool and the three of `ExampleModel.v`; that the drawing of the motor example is accepted is not proved.

## 3. Files

`rocq/theories` holds, per subject X: `XModel.v` (the code, no proofs), `XSpec.v` (the words the theorems are stated in, independent of
the model's helpers), `X*_proofs.v` (lemmas) and `Props_X*.v` (the property theorems, each followed by `Print Assumptions`, and examples that meet
the hypotheses). `Base.v` has the outcomes, checked vectors, loops and scalars; `SumR.v` finite sums; `Pcg_theory.v` conjugate gradients on
functions; `*_bridge.v` restate lemmas in the words of the specification.

`tools/manifest.py` writes MANIFEST.json from the theorem names and `tools/notes.json`; `tools/assumptions.py` writes section 5.

`seeded/LOG.jsonl` is the record of wrong programs tried: one edit of a model definition per line, made in a copy. `failed_directly` is the first
lemma of each file that no longer compiled; `failed` adds the property theorems that depend on it through the use of lemmas.
An edit with empty `failed` survived; `tightened` names the theorems added or strengthened because of it.

## 4. Properties: what is modelled and how it is proved

| id | model | proof |
|---|---|---|
| C01 | `operator()` of the COO matrix as lookup/insert on key lists; arbitrary reorder after each access | refinement to a finite map by induction over the history; key packing injective |
| C02 | the conversion loop with bounds-checked vectors | loop invariant over the sorted entry list; any sorted permutation of distinct keys is unique |
| C03 | same | refuted (missing diagonal); exact trichotomy safe / out-of-bounds / wrapped count |
| C04, C05 | the three `mult` loops | loop invariant; sums over reals |
| C06 | store of vectors addressed by name, loops reading and writing through names | loop invariant for every aliasing pattern |
| C07 | `inner_product` folds | induction; Cauchy-Schwarz by the discriminant argument |
| C08 | SSOR loops | triangular solve invariants; positivity through the factored form |
| C09 | all loops of solvers.cpp | `res` never `UB` for m>=1; refuted for m=0 |
| C10 | the four solver loops | residual invariant by induction over iterations |
| C11 | same | SSOR/CG progress; refuted for Jacobi started at the solution |
| C12 | CG loop | quadratic form argument |
| C13 | IC(0) loops | structure preservation; `<z,r>=|U^T r|^2`; breakdown refutation on Kershaw's matrix; completion on closed patterns by Schur complements (Chol_dense.v, Chol_proofs.v) |
| C14-C16 | loop over the entries | row-wise equivalence; permutation; re-set refuted |
| C17, C18 | expression records, symbolic CSR | induction over operation histories; self-alias is UB |
| C19 | vector operations over R | ring/trigonometric identities |
| C20 | `==`, hash | refuted by a chain of three points |
| C21 | orientation test | sign analysis (nra) |
| C22 | ray casting loop | crossing-parity characterisation |
| C23 | clamp of the projection parameter | convexity; degenerate segment refuted |
| C24 | area tests | soundness; asymmetry refuted |
| C25, C26 | circle constructors | algebra; origin/centroid confusion refuted |
| C27-C34 | drawing state and calls | invariants over call histories; witnesses for the false claims |
| C35-C38 | element loops, adjacency tables, grad/curl | energy identity per element; overflow refuted |
| C39 | Kelvin transform | algebra; NaN at the origin refuted |
| C40 | element sums | algebra over lists |
| C41, C42 | BH look-up, relaxation | case analysis on `lower_bound`; dereference of `end()` refuted |
| C43-C46 | nearest node, block merge, interconnections, power | argmin invariant; index arithmetic; refutations |
| C47, C48 | the block integrals whole (ForceModel): regions, edge map, error estimate, weighting matrix, elimination in an arbitrary visiting order, solve, integral | C47: invariants of the elimination over a permutation, exact set of right-hand sides; order dependence of the force refuted in binary64. C48: contents of the edge map, undefined behaviour for every plane triangulation by a counting argument on directed sides |
| C49 | top-three loop | invariant |
| C50 | magnet list and edge loop | multiplicity refuted |
| C51 | utils | case analysis |
| C52 | OwnModel.v: histories of construction, copy, assignment, meshing, access and destruction over a heap of numbered buffers | invariant over all histories: disjoint ownership; refuted for copies of meshed objects and repeated meshing |
| C53 | min/max loops | invariant |
| C55 | CG over exact arithmetic | conjugacy invariants, dimension argument |
| C56 | IC without the pattern test | refuted; exact condition (iff) from the recursion of the second stage, uniqueness of U^T U and V V^T factors |
| C59 | assembled matrices | energy plus connectivity gives definiteness, hence one solution |
| C60 | boundary matching and append loops | map invariants; unmatched vertex refuted |
| C62 | minimum loop | invariant |
| C65 | solve of a magnetostatic problem, linear and with the fixed-point passes over the BH curves | linear: positive definiteness, termination; non-linear: invariants of a pass (positivity, matrix and right-hand side rebuilt, residual); the claim about the curves refuted on a 25-node mesh in binary64 |
| C68 | removal loop of the surrounding region | invariant of the loop; nested outlines refuted in binary64 |
| C69 | weighting matrix, SSOR preconditioner | zero diagonal entry traced from the field to the division; NaN in binary64 |
| C70 | integral over the shell | discrete Green formula, antisymmetric sum over directed sides; refuted in binary64 |
| C71 | integral over the shell | scaling of the sum; refuted in binary64 |
| C67 | generateSystem, setVoltage, solve of one and several layers | positive definiteness by connectivity, termination of the solver |
| C64 | properties.cpp getMu against a piecewise linear curve | refuted on the iron curve; holds for proportional curves |
| C57, C58 | feature size, refinement loops | minimum invariant; frame and distance invariants |
| C54 | PoolModel.v: small-step interleaving semantics of workers, owner, mutex sections and the condition variable, with spurious wakeups | invariants over all executions, a decreasing weight for termination; refuted for zero workers |
| C72 | shell_elem, shell_matrix, umap, limit, adj_ids | the assembled values are sums of element terms; the quadratic form of the sum is the sum of squares |
| C73 | force_loop, torque_loop, force_integral, torque_integral | induction over the triangles |
| C74 | force integral | density: algebra; refuted in binary64 |
| C75 | torque and force integrals | linearity of the sum; refuted in binary64 |
| C66 | LayersModel.v draw_links: end points, clearance and rings per layer | frame argument per layer, minimum over segments, triangle inequality; duplicates refuted |
| C76 | MaterialModel.v prop_eqb | case analysis and induction on the BH curve |
| C77 | BindModel.v: the methods over a type of Python objects; C++ exceptions that escape end the process; the Triangle library is a parameter; reference counts (RefModel.v) and integers beyond a double are left out | case analysis on the argument lists; exact crash conditions; refuted by a concrete session in binary64 |
| C78 | BindModel.v, decoding stated separately in BindSpec.v (number, integer, coords, vertex, drawn) | equivalence between success and decoded arguments |
| C79 | BindModel.v: offsets, triangle, vertex, voltage and power lists | induction over the layers; session theorem from C46 and C67 |
| C80 | ForceModel.v find_regions, vertex_flags, computeStressIntegral | list induction; holes and flags stated as equivalences |
| C61 | SwitchModel.v: sprintf of the option string into the buffer (decimal digits of an int and exactly rounded decimals of a binary64) and Triangle's option parser, character by character | digits of a number and their parsing are inverse; induction over the string; refuted by concrete values |
| C63 | SetupModel.v: centre, radius, number of boundary points, air seed, the sequence of drawing calls; the conversion to uint32_t is a parameter | a regular polygon has every other vertex and every inner point on the left of each side, so no segment test fails; lock-step induction for the two boundaries; refuted by concrete drawings in exact arithmetic |
| C81 | addRefiningPoints of DrawingModel.v, unchanged; sine, cosine, atan2 are parameters assumed exact | angle below 120 degrees iff the cosine is above -1/2 (Lagrange identity); the pair test finds the shared end because points are apart; induction over corners with the points added so far appended, which no lookup sees |
| C82 | refineMeshAroundMagnets of DrawingModel.v; conversion to uint32_t as truncation, undefined when out of range | map contents by induction with ascending keys; sequential and paired test of candidates agree because a pair is 0.22 feature sizes apart; the corner candidate lies on the boundary, so the containment test accepts it |
| C83 | getElemBarycenter, getDoubleOrientedArea, getOrientedArea, getArea, pointInElem of MeshModel.v | direct computation; containment from the lemmas of C21 |
| C84 | CarveModel.v: the arrays of Mesh::mesh, and carveholes, infecthull, plague and regionplague of the vendored Triangle library over an abstract triangulation | work-list invariant: the pool is the set reached so far, each triangle enters once, so as many steps as triangles are enough; removed triangles are closed under reaching, so cutting them off changes nothing for the others |
| C85 | MeshModel.v: getFemSystemCotangentWeights as a whole; CotSpec.v: triangles at a side, third corner, cotangent from coordinates | neighbour lists counted by value, the two triangles found are those at the side, cot(abs(atan2)) is dot over absolute determinant, element matrix compared with the cotangent |
| C86 | RefModel.v: heap of counted objects, PyTuple_Pack, PyList_SetItem, Py_DECREF with what it frees, the loops that build the lists; the shared small integers are a parameter; RefSpec.v: live objects, references nobody holds | every call of the C API changes the number of unowned references by a fixed amount; lists filled slot by slot; the three parts of a result keep one reference each when the tuple goes |
| C87 | PhysSpec.v: solutions of the system after the calls, similarities as maps multiplying distances, the carried mesh | a solution is characterised by the imposed values and the rows of the other nodes; element matrices are expressed with dot products of sides, which a similarity multiplies by k^2 like the area |
| C88 | PhysSpec.v: obtuse angles, weighted sums of opposite cotangents | energy written as a sum over pairs of nodes; cutting the voltages off at the bound does not raise it, and the solution is the only minimum; the lower bound by superposition |
| C89 | PhysSpec.v: nodes whose sides all lie between two triangles | area times gradient of a hat function is a difference of corner coordinates along the counterclockwise sides; around an inner node the sides cancel in pairs (conforming mesh) |
| C90 | PhysSpec.v: dissipated power and the current leaving a node, from gradients on the triangles | cross terms of the energy vanish between a solution and a change that keeps the electrodes; definiteness from C59; rows and columns add up to zero |
| C91 | MagSpec.v: solutions of the assembled system with the outermost nodes held, for given permeabilities | the matrix is that of a conductor with the inverse permeabilities; the load of the magnets is written as a sum over all outlines around labels, magnetised or not, with frames that do not depend on the magnetisation |
| C92 | MagSpec.v: integrals of J A and B H over the triangles | the rows of the free nodes tested with the other solution; symmetric matrix |
| C93 | MagSpec.v: stored energy from gradients on the triangles | completing the square around the solution; definiteness of the matrix off the held nodes; energies compared triangle by triangle |
| C94 | MagSpec.v: sums of opposite cotangents over permeabilities | the absolute value of the solution has no more energy and no less linkage, so it is the solution |
| C95 | StackSpec.v: exact solutions after generateSystem and the calls of setVoltage | the right-hand side is zero; rows of the free nodes are linear |
| C96 | StackSpec.v: as C95; cotangents of PhysSpec.v per layer | interconnections add graph Laplacians, which keep rows zero and off-diagonals nonpositive; clipping argument of C88 |
| C97 | StackSpec.v: power from gradients per layer plus conductance times squared voltage; currents against nodal functions | block matrix plus Laplacians of the interconnections; completing the square; monotone energies |
| C98 | StackSpec.v against PhysSpec.v: both simulations, same meshes | block matrix acts layer by layer; calls sorted by layer |
| C99 | ZeroSpec.v: generateSystem, the calls of setVoltage and solve in a row; the answer itself, not the exact solution | right-hand side linear in the voltages; conjugate gradients from zero stop at once below the tolerance; row of a held node is the identity |
| C100 | AgainSpec.v: calls in a row on SetupModel.v and draw_links of LayersModel.v, up to the mesher | corners of a regular polygon add up to zero (telescoping), so the centroid is the origin after the first call; C63_usual and C66_points call by call |
| C101 | DrawingModel.v; plane, draw_all and stored in PlaneSpec.v | invariant over the calls: points, segments and polygons are those of the outlines so far (Plane_proofs.v) |
| C102 | ExampleModel.v: calls, conversion of the argument, cost and iteration | twelve vertices and the boxes of axis-parallel edges, then C101; rest by computation and induction on the iterations |
| C103 | ExampleModel.v: outline, layout, advance, turns | corner coordinates; a corner is never in the box of an edge it does not end; then C101; induction on the turns |
| C104 | ExampleModel.v: motor_calls, the whole of draw_motor | cross products in polar coordinates; geometric sum by telescoping |
| C105 | GeometryModel.v and SegmentModel.v with the binary64 operations of the standard library | case analysis on the operands: x - y is -(y - x) up to the sign of zero; no overflow by bounds on mantissa and exponent (Float_proofs.v, FloatBound_proofs.v, FloatUse_proofs.v) |
| C106 | the same models with binary64 numbers | the sign is kept by +, *, / and sqrt |
| C107 | GeometryModel.v and AlgebraModel.v with binary64 numbers, compared with the same definitions over the real numbers at the values of the doubles | the operations of SpecFloat are those of Flocq's BinarySingleNaN, whose theorems give (exact)(1+d)+e for each; the errors are accumulated by induction on the vector and through the formulas; results with at most 53 bits are exact (Round_proofs.v, RoundUse_proofs.v, RoundGrid_proofs.v) |
| C108 | AlgebraModel.v for every scalar type, and with binary64 numbers | the loop from the last row to the first is unrolled to a fold over the stored positions, which is an inner product started at the diagonal term; then the bound of C107 (MultOrder_proofs.v, MultRound_proofs.v) |
| C109 | PredicateModel.v: exactinit and the first stage of counterclockwise, for every scalar type; used with binary64 numbers; the call of the adaptive stage is an outcome | errors of the two differences and the product relative to the exact terms (Flocq), then the filter inequality; the start-up loop is computed once and shown monotone in the fuel (Predicate_proofs.v) |
| C110 | PredicateModel.v: the first stage of incircle; PredicateSpec.v: the determinant over the reals | error of each of the three terms relative to its magnitude, the permanent bounds the sum of magnitudes from below; the determinant is the power of the point times the signed area (Incircle_proofs.v) |
| C111 | ExpansionModel.v: the macros, fast_expansion_sum_zeroelim and counterclockwiseadapt with every array access checked | invariant: a successful step leaves both indices inside the arrays, so the loops cannot end; with padding the loops are a merge of the two lists (Expansion_proofs.v) |
| C112 | ExpansionModel.v with binary64 numbers | each operation is a rounding (Flocq); TwoSum, Fast2Sum and Dekker's product of Flocq after matching the order of operations; induction over the merged components, finite results imply finite intermediate values (ExpansionR_proofs.v) |
| C113 | ExpansionModel.v orientation: counterclockwise and counterclockwiseadapt with binary64 numbers | second and third stage: all roundings as errors relative to the rounded result, triangle inequalities, and linear arithmetic with the numeral of the rounding unit; exact differences: nearest-value argument with Sterbenz' lemma and the gap between neighbouring doubles; absence of overflow by exponent bounds (StageB_proofs.v) |
| C114 | ScaleModel.v: scale_expansion_zeroelim with every array access checked | the loop is a fold over the components; invariant: the running sum is at most 3/2 of the number times the largest component so far, so the short sum gets its larger argument first (Scale_proofs.v) |

## 5. Print Assumptions

`tools/assumptions.py` asks Coq for the assumptions of each of the 535 theorems named in MANIFEST.json and groups them.
All axioms are the standard library's; none is declared in `rocq/theories`.

### Closed under the global context

C01_coo_is_a_map, C01_coo_never_stuck, C01_reachable_is_valid, C02_csr_lossless, C02_csr_order_independent, C03_csr_in_bounds_refuted, C03_csr_trichotomy, C06_division_alias_safe, C06_kernels_alias_safe, C06_short_operands_are_undefined, C06_short_result_is_undefined, C09_solvers_in_bounds, C09_ssor_empty_out_of_bounds, C09_ssor_preconditioner_in_bounds, C105_circle_equal, C105_circles, C105_direction, C105_direction_limit, C105_dot, C105_itself, C105_orientation, C105_orientation_limit, C105_points, C105_segment_equal, C105_segment_length, C105_segments, C105_start, C106_comparison, C106_distance_finite, C106_feature_size, C106_lengths, C106_limits, C106_norms, C106_power, C108_order, C111_outcomes, C111_overrun, C111_padded, C113_outcomes, C114_empty, C114_inside, C13_binary64_solution_nan_refuted, C13_closed_patterns, C13_pattern_kept, C14_dirichlet_out_of_range, C15_dirichlet_hash_order, C17_linear_iff, C20_reflexive_nan_refuted, C23_degenerate_nan_refuted, C25_minimum_refuted, C27_empty_polygon_refuted, C27_memory_safe, C27_well_formed, C29_failure_only_adds_partial, C29_others_succeed, C29_refuted, C30_refuted, C31_equal_properties_partial, C31_equal_refuted, C31_lookup, C31_recorded, C31_same_property_same_id, C31_stable, C32_ieee_refuted, C33_refuted, C34_magnets_only_add, C34_refining_only_adds, C35_conductor_out_of_bounds_beyond_18, C35_conductor_safe_up_to_18, C35_cotangent_out_of_bounds_beyond_9, C35_cotangent_safe_up_to_9, C35_magnetostatic_out_of_bounds_beyond_18, C35_magnetostatic_safe_up_to_18, C41_binary64_iron_refuted, C41_constant_and_single_point, C41_out_of_bounds_iff, C43_binary64_refuted, C43_unknown_layer, C44_depths, C47_refuted, C51_limit_nan, C52_copy, C52_freed_partial, C52_leak_refuted, C52_refuted, C52_safe_partial, C52_use_refuted, C54_ends, C54_fifo, C54_no_deadlock, C54_once, C54_refuted, C54_stop_partial, C58_magnet_points, C60_new_vertices_are_distinct, C61_refuted, C63_refined, C63_same_boundary, C65_reported_convergence_refuted, C67_fits, C68_exactly_one, C68_refuted, C69_refuted, C70_refuted, C71_refuted, C74_refuted, C75_refuted, C77_generate_raises, C77_generate_types, C77_link_crash, C77_link_layers, C77_link_stored, C77_link_types, C77_link_unchanged, C77_new, C77_polygon_crash, C77_polygon_types, C77_rectangle_crash, C77_rectangle_types, C77_refuted, C77_region_crash, C77_region_types, C77_solve_crash, C77_solve_raises, C77_unchanged, C77_voltage_crash, C77_voltage_types, C78_generate, C78_ints_refuted, C78_layers, C78_link, C78_new, C78_polygon, C78_rectangle, C78_region, C78_voltage, C79_power, C79_power_refuted, C79_solve, C79_triangles, C79_vertices, C80_nodes, C80_regions, C80_stress, C81_ieee_refuted, C82_ieee_refuted, C83_range, C84_drawing, C84_input, C84_material, C84_no_seed, C84_orphan, C84_removed, C84_sizes, C84_uniform, C84_unwritten, C86_generate, C86_history, C86_new, C86_solve.

### Axioms: `ClassicalDedekindReals.sig_forall_dec`

C36_symmetric.

### Axioms: `ClassicalDedekindReals.sig_forall_dec`, `FunctionalExtensionality.functional_extensionality_dep`

C07_dot_linear, C07_dot_symmetric, C07_squareSum_definite, C109_constants, C112_fast_sum_refuted, C61_buffer, C61_negative_angle, C61_negative_area, C61_options, C61_small, C61_usual.

### Axioms: `ClassicalDedekindReals.sig_forall_dec`, `ClassicalDedekindReals.sig_not_dec`, `FunctionalExtensionality.functional_extensionality_dep`

C04_symmetric_product, C05_adjoint, C05_sum, C05_triangular_products, C07_cauchy_schwarz, C07_dot_is_the_inner_product, C07_norm_scales, C07_squareSum_and_norm, C07_triangle, C08_ssor_linear, C08_ssor_positive, C08_ssor_solves_its_matrix, C08_ssor_symmetric, C08_ssor_unique, C09_solvers_in_bounds_refuted, C100_layers, C100_unlinked, C101_accepted, C102_current, C102_current_refuted, C102_descent, C102_design, C102_quadratic, C102_size, C103_accepted, C103_conserved, C103_shape, C103_turn, C104_calls, C104_magnets, C104_magnets_refuted, C104_net_current, C104_phases, C104_rotor, C104_seeds, C104_stator, C109_underflow_refuted, C10_stopping_is_about_the_true_residual, C110_meaning, C11_jacobi_divides_by_zero_at_the_solution, C11_solvers_finish, C11_solvers_finish_refuted, C12_energy_decreases, C12_limit_beyond_the_stop_changes_nothing, C13_completes_closed, C13_factor_exists, C13_preconditioner_symmetric_positive, C13_spd_factorisation_completes_refuted, C14_dirichlet_posdef, C14_dirichlet_solutions, C14_many_dirichlet_solutions, C15_dirichlet_any_order, C15_dirichlet_idempotent, C16_last_value_wins_refuted, C16_reset_exact, C16_reset_solutions, C17_bad_permeability, C17_expressions_homomorphic, C17_no_self_alias_is_defined, C17_self_addition_refuted, C18_symbolic_dirichlet, C18_symbolic_matrix_evaluation, C19_area, C19_area_invariant, C19_normal, C19_normalize, C19_polygon_rotation, C19_quarter_turn, C19_rotation_composes, C19_rotation_fixes_centre, C19_rotation_isometry, C19_rotation_undone, C20_chain, C20_equality, C20_hash_refuted, C20_inequality, C20_reflexive, C20_transitive_refuted, C21_complete, C21_degenerate_refuted, C21_exact, C21_small_triangle_refuted, C21_sound, C21_vertex_order, C22_boundary_counts, C22_direction, C22_even_odd, C22_outside_bounding_box, C22_polygon_in_polygon, C22_ray_count_unique, C22_rectangle, C22_starting_vertex, C22_tolerance, C22_translation, C22_triangle, C23_degenerate_refuted, C23_minimum, C24_bounding_box, C24_crossing_detected, C24_degenerate_refuted, C24_direction_refuted, C24_exact_partial, C24_grid, C24_sound, C24_touch_is_a_touch, C24_touching_exact, C25_centred_encloses, C25_double_radius_encloses, C25_empty_drawing, C25_enclosing_exact, C25_enclosing_refuted, C25_minimum_partial, C26_collinear, C26_order, C26_three_points, C26_two_points, C26_unique, C27_outline_drawn, C27_polygons_outlined, C28_crossing_partial, C28_refuted, C28_rejection_justified, C30_merged_partial, C30_segments_have_two_ends, C32_answers_unchanged, C32_translate, C32_translate_back, C33_exact_partial, C33_unknown_polygon, C35_refuted, C36_conductor_energy, C36_conductor_semidefinite, C36_currents_add_up_to_zero, C36_gradients_exist, C37_energy_and_row_sums, C37_total_load, C38_curl_is_the_gradient_turned, C38_degenerate_triangle, C38_flux_out_of_a_triangle_is_zero, C38_gradient_of_an_affine_field, C38_normal_flux_is_continuous, C39_circle_is_fixed, C39_core_is_clamped, C39_finite_refuted, C39_moves_unmarked_vertices_only, C39_off_centre_refuted, C39_origin, C39_own_inverse, C39_same_ray_and_product, C40_area_and_mass, C40_barycentre, C40_barycentre_in_every_half_plane, C40_frame_refuted, C40_inertia, C40_inertia_is_nonnegative_and_least_at_the_barycentre, C40_inertia_of_a_square_refuted, C40_numbering_does_not_matter, C40_polygon, C40_translation, C41_curves_are_ordered, C41_defined_outside_the_last_interval, C41_flat_curve, C41_refuted, C42_defined, C42_first_update_ignores_the_curve, C42_values, C43_any_calls, C43_any_calls_layers, C43_one_call, C44_layers_independent, C44_one_unknown_per_node, C45_conservation_partial, C45_entries, C45_refuted, C45_row_sums, C45_self_interconnection, C46_power, C46_short_vector, C47_accuracy, C47_independent_iff, C47_matrix, C47_outcomes, C47_prescribed_partial, C47_prescribed_refuted, C47_weights, C48_closed, C48_open, C48_planar_refuted, C49_potential_is_zero_there, C49_refuted, C49_three_farthest, C50_alone_counted_once_per_vertex, C50_load, C50_nested_counted_once_per_label, C50_rectangle_points_lie_inside, C50_refuted, C50_segments, C51_jet, C51_jet_constant_field_refuted, C51_jet_faithful, C51_limit, C51_map, C51_map_degenerate_refuted, C51_map_inverse, C53_box_contains_every_vertex, C53_clipped_box, C53_coincident_vertices, C53_no_vertices, C53_plot_inside, C53_plot_stays_in_the_image, C53_smallest_refuted, C55_finite_termination, C55_plain_cg_finite_termination, C56_full_pattern_inverse_refuted, C56_inverse_iff, C56_one_iteration, C56_usable, C57_feature_size, C58_refining_points, C59_conductor, C59_magnetostatic, C59_nothing_held_is_singular, C60_refuted, C60_succeeds_when_the_boundaries_match, C60_unmatched_vertex_is_undefined, C60_what_is_added, C62_half_the_shortest_edge, C62_positive, C63_no_boundary, C63_outside, C63_setup, C64_proportional_curve, C64_refuted, C65_linear, C65_row_by_row, C66_clear, C66_on_segment, C66_points, C66_refuted, C66_symmetric, C67_conductor, C67_layers, C68_otherwise, C69_tables, C69_vanishing, C70_rim_not_held, C70_uniform_partial, C71_integral_partial, C72_flat, C72_force, C72_torque, C72_weight_range, C73_defined, C73_force, C73_torque, C74_density_partial, C75_moment_partial, C76_equal, C79_session, C81_drawn, C81_exact, C82_clear, C82_exact, C82_no_magnet, C82_rectangle_refuted, C83_area, C83_barycentre, C83_inside, C83_split, C84_default_refuted, C85_against_fem, C85_entries, C85_inner_vertex, C85_same_refuted, C86_refuted, C87_scale, C87_similar, C87_superposition, C88_acute, C88_between, C88_refuted, C89_affine, C90_currents, C90_least, C90_raise, C91_permeability, C91_refuted, C91_similar, C91_superposition, C92_energy, C92_reciprocity, C93_least, C93_raise, C94_acute, C94_monotone, C94_refuted, C94_sign, C95_scale, C95_superposition, C96_acute, C96_between, C96_refuted, C97_currents, C97_least, C97_raise, C97_refuted, C98_apart, C98_single, C99_imposed, C99_imposed_layers, C99_no_source_linear, C99_no_voltage, C99_no_voltage_layers, C99_refuted, C99_weak.

### Axioms: `ClassicalDedekindReals.sig_forall_dec`, `ClassicalDedekindReals.sig_not_dec`, `Classical_Prop.classic`, `FunctionalExtensionality.functional_extensionality_dep`

C100_grows, C100_refuted, C107_contains, C107_distance, C107_dot, C107_grid, C107_grid_contains, C107_integers_are_doubles, C107_intersect, C107_norm, C107_orientation, C107_orientation_limit, C107_orientation_same, C107_points_equal, C107_triangle, C108_rounding, C109_adaptive, C109_noexact_refuted, C109_range, C109_sign, C110_inside, C110_sign, C111_refuted, C112_determinant, C112_difference, C112_expansions, C112_fast_sum, C112_four, C112_product, C112_sum, C113_exact_differences, C113_in_line, C113_integers, C113_order, C113_sign, C114_close_refuted, C114_exact, C114_three, C42_between_refuted, C42_bounds_partial, C42_stays_positive, C63_enclosed_refuted, C63_seed_refuted, C63_usual, C65_early_convergence, C65_early_convergence_17, C65_nonlinear_partial, C99_no_source_curves.
