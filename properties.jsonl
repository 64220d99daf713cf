{"id": "C01", "title": "COO matrix behaves as a map on upper-triangular positions", "statement": "After any history of reads and writes through A(i,j), reading A(i,j) with i<=j gives the last value written there (or the zero value of T if never written); positions other than the one written are unchanged; two different positions never share storage; A(i,j) with i>j always throws and changes nothing.", "quantifier": "all sequences of accesses, all 32-bit index pairs, all value types, all hash-table iteration orders", "why_tests_cant": "The index pair is packed into one 64-bit key; aliasing of positions and history dependence over 2^64 pairs and unbounded histories cannot be sampled.", "anchors": ["lib/nikfemm/src/algebra/coo.hpp: MatCOOSymmetric::operator()"]}
{"id": "C02", "title": "COO to CSR conversion is lossless and independent of hash order", "statement": "If every diagonal position of an m x m symmetric COO matrix has been touched, the conversion performs only in-bounds accesses and the resulting CSR(i,j) equals the COO value of the position {i,j} for all i,j<m (0 when never touched), is symmetric, and does not depend on the iteration order of the hash map.", "quantifier": "all matrices of all sizes and sparsity patterns, all iteration orders", "why_tests_cant": "Depends on sortedness, prefix sums and counts for every pattern; the iteration order is unspecified.", "anchors": ["lib/nikfemm/src/algebra/csr.cpp: BaseCSR::BaseCSR(MatCOOSymmetric&), BaseCSR::operator()", "lib/nikfemm/src/algebra/csr.hpp"]}
{"id": "C03", "title": "COO to CSR conversion never writes out of bounds", "statement": "Converting any in-range symmetric COO matrix to CSR stays inside the allocated vectors and records the true number of off-diagonal entries, whether or not every diagonal position was touched.", "quantifier": "all in-range symmetric COO matrices", "why_tests_cant": "Memory safety over every sparsity pattern; tests only build matrices with full diagonals.", "anchors": ["lib/nikfemm/src/algebra/csr.cpp: BaseCSR::BaseCSR(MatCOOSymmetric&)", "lib/nikfemm/src/algebra/non_linear.cpp: NonLinearMatCSRSymmetric"]}
{"id": "C04", "title": "Symmetric sparse product equals the dense product", "statement": "mult(y,A,x) with y and x distinct vectors of length m sets y[i] to the sum over all j of A(i,j)*x[j], whatever y held before, without out-of-bounds accesses.", "quantifier": "all CSR matrices obtained by conversion, all vectors, all previous contents of the result", "why_tests_cant": "The single-pass scatter/gather is order sensitive; correctness for every pattern is an induction, not a sample.", "anchors": ["lib/nikfemm/src/algebra/math.cpp: mult(vector&, MatCSRSymmetric&, vector&)"]}
{"id": "C05", "title": "Lower and upper triangular products are the two triangles of the same matrix", "statement": "The upper product computes sum over j>=i of A(i,j)x[j], the lower product sum over j<=i; they are adjoint (<Ux,y>=<x,Ly>), and lower plus upper minus diagonal equals the symmetric product.", "quantifier": "all CSR matrices obtained by conversion, all vectors", "why_tests_cant": "An identity over all matrices and vectors.", "anchors": ["lib/nikfemm/src/algebra/math.cpp: mult(MatCSRLowerTri), mult(MatCSRUpperTri)"]}
{"id": "C06", "title": "Vector kernels are alias-safe", "statement": "add, sub, mult, div, addScaled and copy give the elementwise result computed from the operand contents before the call, also when the result vector is the same object as one or both operands; entries of the result beyond the operand length and all other vectors are untouched; they stay in bounds exactly when result and second operand are at least as long as the first operand.", "quantifier": "all vectors, all lengths, all aliasing patterns", "why_tests_cant": "In-place loops mix reads and writes; all aliasing patterns and length mismatches cannot be enumerated by tests.", "anchors": ["lib/nikfemm/src/algebra/math.cpp: add, sub, mult, div, addScaled, copy"]}
{"id": "C07", "title": "dot, squareSum and norm define a Euclidean inner product", "statement": "In exact arithmetic dot is symmetric and bilinear, squareSum(x)=dot(x,x)>=0 with equality only for the zero vector, norm satisfies Cauchy-Schwarz and the triangle inequality and scales with |a|.", "quantifier": "all real vectors of every length", "why_tests_cant": "Universal algebraic laws.", "anchors": ["lib/nikfemm/src/algebra/math.cpp: dot, squareSum, norm"]}
{"id": "C08", "title": "SSOR preconditioner inverts the SSOR matrix", "statement": "For 0<omega<2 and non-zero diagonal, the vector z produced from r satisfies (D+omega L) D^-1 (D+omega U) z = omega(2-omega) r; the map r -> z is linear and symmetric, and positive (r.z>0 for r<>0) when the diagonal is positive.", "quantifier": "all CSR matrices of size at least 1, all vectors, all omega", "why_tests_cant": "Triangular solves for every pattern; symmetry and positivity are what makes PCG valid.", "anchors": ["lib/nikfemm/src/algebra/solvers.cpp: multSSORPreconditioner"]}
{"id": "C09", "title": "Linear solvers never touch memory out of bounds", "statement": "Every solver and preconditioner stays in bounds for every square system with matching vector lengths, including the empty system.", "quantifier": "all sizes including 0, all patterns, all iteration limits", "why_tests_cant": "Memory safety over all shapes; the empty system is an untested corner.", "anchors": ["lib/nikfemm/src/algebra/solvers.cpp: multSSORPreconditioner, incompleteCholeskyDecomposition, conjugateGradientSolver, preconditioned*ConjugateGradientSolver"]}
{"id": "C10", "title": "A solver that stops early has a small true residual", "statement": "In exact arithmetic, whenever one of the four CG solvers stops before its iteration limit, the returned x satisfies |b-Ax| < maxError for the matrix and right-hand side passed in; at every iteration the internal residual equals b-Ax.", "quantifier": "all matrices, right-hand sides, starting points, tolerances, iteration limits", "why_tests_cant": "The solver checks a recursively updated residual, never b-Ax; equality is an invariant over unbounded iterations.", "anchors": ["lib/nikfemm/src/algebra/solvers.cpp: conjugateGradientSolver, preconditionedJacobiConjugateGradientSolver, preconditionedSSORConjugateGradientSolver, preconditionedIncompleteCholeskyConjugateGradientSolver"]}
{"id": "C11", "title": "Solvers never divide by zero on symmetric positive definite systems", "statement": "For a symmetric positive definite matrix, any right-hand side, any starting point (including the exact solution) and a positive tolerance, the CG solvers finish without a division by zero.", "quantifier": "all SPD systems and starting points", "why_tests_cant": "Depends on exact breakdown conditions at every iteration.", "anchors": ["lib/nikfemm/src/algebra/solvers.cpp: conjugateGradientSolver, preconditionedJacobiConjugateGradientSolver, preconditionedSSORConjugateGradientSolver"]}
{"id": "C12", "title": "Each CG step decreases the energy error", "statement": "In exact arithmetic with SPD matrix, as long as the epsilon clamps do not fire, one CG/PCG iteration never increases the energy norm of the error, and strictly decreases it while the residual is non-zero.", "quantifier": "all SPD systems, all iterations", "why_tests_cant": "Monotonicity over unbounded iterations.", "anchors": ["lib/nikfemm/src/algebra/solvers.cpp: conjugateGradientSolver"]}
{"id": "C13", "title": "Incomplete Cholesky preconditioner is symmetric positive and keeps the pattern", "statement": "The factor returned for A has exactly the sparsity pattern of A, and the preconditioner applied in the PCG solver is symmetric and positive semidefinite; when A is SPD the factorisation completes without taking the root of a non-positive number.", "quantifier": "all CSR matrices, all SPD matrices", "why_tests_cant": "IC(0) may break down only on special patterns and values.", "anchors": ["lib/nikfemm/src/algebra/solvers.cpp: incompleteCholeskyDecomposition, preconditionedIncompleteCholeskyConjugateGradientSolver"]}
{"id": "C14", "title": "Dirichlet condition keeps exactly the right solutions", "statement": "After addDirichletBoundaryCondition(id,v), a vector x solves the system iff x[id]=v and x satisfies every equation of the original system other than number id; the matrix stays symmetric and positive definiteness is preserved.", "quantifier": "all systems, all nodes, all values, all hash iteration orders", "why_tests_cant": "Equivalence over all solution vectors and patterns.", "anchors": ["lib/nikfemm/src/algebra/system.hpp: System::addDirichletBoundaryCondition"]}
{"id": "C15", "title": "Dirichlet conditions commute and are idempotent", "statement": "Conditions on distinct nodes can be applied in any order with the same resulting system; applying the same condition twice equals applying it once; the outcome does not depend on hash iteration order.", "quantifier": "all systems, nodes, values, application orders", "why_tests_cant": "Order independence over all permutations and orders of an unordered map.", "anchors": ["lib/nikfemm/src/algebra/system.hpp: System::addDirichletBoundaryCondition"]}
{"id": "C16", "title": "Setting a node again replaces its value", "statement": "Calling addDirichletBoundaryCondition(id,v1) and later (id,v2) gives the same system as only the last call.", "quantifier": "all systems, nodes and values", "why_tests_cant": "History dependence.", "anchors": ["lib/nikfemm/src/algebra/system.hpp: System::addDirichletBoundaryCondition", "lib/nikfemm/src/current_density/simulation.cpp: setVoltage"]}
{"id": "C17", "title": "Non-linear expressions evaluate homomorphically", "statement": "For every sequence of =, +=, -= and * operations on expressions, evaluating the result at a material vector mu equals performing the same operations on the evaluated numbers, including when an expression is added to or subtracted from itself.", "quantifier": "all operation histories, all mu with non-zero entries, all aliasing", "why_tests_cant": "Histories are unbounded; self-aliasing iterates a vector while growing it.", "anchors": ["lib/nikfemm/src/algebra/non_linear.hpp: NonLinearExpression", "lib/nikfemm/src/algebra/non_linear.cpp: NonLinearExpression::evaluate"]}
{"id": "C18", "title": "Non-linear matrix evaluation equals linear assembly at frozen permeability", "statement": "Evaluating the symbolic CSR matrix at mu gives the same matrix as converting the numerically evaluated COO matrix, for every mu and regardless of previously evaluated mu; applying Dirichlet conditions symbolically commutes with evaluation.", "quantifier": "all symbolic matrices, all evaluation histories", "why_tests_cant": "Re-used storage across Newton-like iterations; history independence.", "anchors": ["lib/nikfemm/src/algebra/non_linear.cpp: NonLinearMatCSRSymmetric, evaluate", "lib/nikfemm/src/algebra/system.hpp"]}
{"id": "C19", "title": "Vector rotation and area laws", "statement": "Rotation by any angle about any centre is an isometry, composes additively and is undone by the opposite angle; oriented area is invariant under rotation and translation, alternating and cyclic.", "quantifier": "all real vectors, angles, centres", "why_tests_cant": "Universal geometric identities.", "anchors": ["lib/nikfemm/src/geometry/vector.hpp: Vector::rotate, Vector::doubleOrientedArea, Vector::area, Vector::distance"]}
{"id": "C20", "title": "Vector equality is an equivalence consistent with hashing", "statement": "operator== on vectors is reflexive, symmetric and transitive, and equal vectors have equal hashes, so hash sets of vectors behave as sets.", "quantifier": "all vectors", "why_tests_cant": "Tolerance equality fails only for adversarial chains.", "anchors": ["lib/nikfemm/src/geometry/vector.hpp: Vector::operator==, std::hash<Vector>"]}
{"id": "C21", "title": "Point-in-triangle test is exact on non-degenerate triangles", "statement": "For a non-degenerate triangle the test is true exactly for interior points (up to the orientation tolerance) and does not depend on vertex order; for a degenerate triangle it is false.", "quantifier": "all triangles and points", "why_tests_cant": "Exact boundary behaviour over the continuum.", "anchors": ["lib/nikfemm/src/geometry/common.hpp: geomOrientation, pointInTriangle"]}
{"id": "C22", "title": "Polygon containment is a well-defined region test", "statement": "contains(p) is true for every vertex and edge point, does not depend on the starting vertex or the direction of the vertex list, is invariant under translation, and for axis-parallel rectangles is true exactly on the closed rectangle.", "quantifier": "all polygons and points", "why_tests_cant": "Ray casting has corner cases whenever the ray meets vertices or horizontal edges.", "anchors": ["lib/nikfemm/src/geometry/polygon.cpp: Polygon::contains(Vector)", "lib/nikfemm/src/geometry/polygon.hpp"]}
{"id": "C23", "title": "Point-segment distance is the minimum distance", "statement": "pointSegmentDistance(p,s) is the minimum of the distance from p to the points of s, for every segment including one whose endpoints coincide.", "quantifier": "all points and segments", "why_tests_cant": "A minimum over a continuum; degenerate segments.", "anchors": ["lib/nikfemm/src/geometry/segment.cpp: Segment::pointSegmentDistance"]}
{"id": "C24", "title": "Segment intersection test is sound, complete and symmetric", "statement": "segmentsIntersect(s,t) is true iff the closed segments share a point, and does not depend on argument order or direction of either segment.", "quantifier": "all pairs of segments", "why_tests_cant": "Degenerate touching configurations form a measure-zero set random tests miss.", "anchors": ["lib/nikfemm/src/geometry/segment.cpp: Segment::segmentsIntersect"]}
{"id": "C25", "title": "Enclosing circles enclose", "statement": "The circle computed as enclosing circle of a drawing contains every point of the drawing.", "quantifier": "all non-empty point lists", "why_tests_cant": "Any offset of the drawing from the origin matters; tests use centred drawings.", "anchors": ["lib/nikfemm/src/geometry/circle.cpp: Circle::getEnclosingCircle, getMinimumEnclosingCircle", "lib/nikfemm/src/drawing/drawing.hpp"]}
{"id": "C26", "title": "Circle through given points", "statement": "The circle through three non-collinear points is equidistant from them, independent of their order; the two-point circle has both points as a diameter and is the smallest circle containing them.", "quantifier": "all point triples and pairs", "why_tests_cant": "Universal geometric identities.", "anchors": ["lib/nikfemm/src/geometry/circle.cpp: Circle::Circle(p1,p2,p3), Circle::Circle(p1,p2)"]}
{"id": "C27", "title": "Drawings stay well-formed", "statement": "After any sequence of drawing calls (including ones that throw and are caught), every segment refers to existing points, no two stored segments are equal up to direction, region entries refer to existing properties, every stored polygon is outlined by stored segments, and no call reads or writes outside an array.", "quantifier": "all drawing call histories", "why_tests_cant": "Unbounded histories including partial failures.", "anchors": ["lib/nikfemm/src/drawing/drawing.hpp: drawSegment, drawPoint, drawRegion, drawPolygon, drawRectangle, drawCircle, addRefiningPoints, translate"]}
{"id": "C28", "title": "Crossing segments are rejected", "statement": "drawRectangle, drawPolygon and drawCircle throw whenever an edge of the new outline crosses a segment already in the drawing in a point that is interior to both; and when they throw, an edge really meets such a segment.", "quantifier": "all drawings and outlines", "why_tests_cant": "The bounding-box prefilter misses configurations where no endpoint is inside the box.", "anchors": ["lib/nikfemm/src/drawing/drawing.hpp: drawSegment, drawRectangle, drawCircle, drawPolygon", "lib/nikfemm/src/geometry/segment.cpp"]}
{"id": "C29", "title": "A failing drawing call leaves the drawing unchanged", "statement": "If drawRectangle, drawPolygon or drawCircle throws, points, segments, regions and polygons are as before the call.", "quantifier": "all drawings and outlines", "why_tests_cant": "Exception safety over all states.", "anchors": ["lib/nikfemm/src/drawing/drawing.hpp: drawSegment, drawRectangle, drawCircle, drawPolygon"]}
{"id": "C30", "title": "Points are merged within tolerance", "statement": "After any history of drawing calls no two stored points are equal under the library's point equality, and no stored segment joins a point to itself.", "quantifier": "all drawing call histories", "why_tests_cant": "Unbounded histories.", "anchors": ["lib/nikfemm/src/drawing/drawing.hpp: drawSegment, drawPoint, drawRectangle, drawPolygon, drawCircle"]}
{"id": "C31", "title": "Region identifiers are stable and faithful", "statement": "The id recorded for a region always resolves to a property equal to the one passed to drawRegion, ids never change when more regions are drawn, equal properties get equal ids, and an unknown id throws instead of reading out of bounds.", "quantifier": "all histories of drawRegion calls", "why_tests_cant": "History dependence over unbounded call sequences.", "anchors": ["lib/nikfemm/src/drawing/drawing.hpp: getRegionId, getRegionPtrFromId, drawRegion"]}
{"id": "C32", "title": "Translating a drawing and back restores it", "statement": "translate(v) moves every point and region point by v (so all mutual differences, and with them containment and intersection answers, are unchanged) and translate(-v) undoes it in exact arithmetic.", "quantifier": "all drawings and vectors", "why_tests_cant": "Universal law.", "anchors": ["lib/nikfemm/src/drawing/drawing.hpp: translate", "lib/nikfemm/src/geometry/polygon.cpp: translate"]}
{"id": "C33", "title": "A polygon containing region seeds reports its property", "statement": "getPolygonProp(p) gives the property of the region whose innermost enclosing polygon is p.", "quantifier": "all drawings", "why_tests_cant": "Nested configurations of any depth.", "anchors": ["lib/nikfemm/src/drawing/drawing.hpp: getPolygonProp"]}
{"id": "C34", "title": "Refinement only adds points", "statement": "addRefiningPoints and refineMeshAroundMagnets only append points; existing points, segments, regions and properties keep their index and value.", "quantifier": "all drawings", "why_tests_cant": "Frame condition over all states.", "anchors": ["lib/nikfemm/src/drawing/drawing.hpp: addRefiningPoints, getCurrentEpsilon", "lib/nikfemm/src/magnetostatic/mesh.cpp: refineMeshAroundMagnets"]}
{"id": "C35", "title": "FEM assembly is memory safe on every conforming triangulation", "statement": "Assembling the system for any triangulation with in-range vertex indices stays in bounds, whatever the vertex degrees.", "quantifier": "all triangulations", "why_tests_cant": "Fixed-size adjacency tables overflow only for special meshes.", "anchors": ["lib/nikfemm/src/magnetostatic/mesh.cpp: getFemSystem", "lib/nikfemm/src/current_density/mesh.cpp: getFemSystem, getFemSystemCotangentWeights"]}
{"id": "C36", "title": "Assembled energy equals the integral of the field energy", "statement": "For the current-density assembly, x^T A x equals depth times the sum over triangles of conductivity * |grad x|^2 * area for every nodal vector x; hence A is symmetric positive semidefinite, annihilates constants, and its row sums are zero.", "quantifier": "all meshes within the adjacency capacity, all nodal vectors, all conductivities", "why_tests_cant": "Holds for every mesh; ties assembly to post-processing.", "anchors": ["lib/nikfemm/src/current_density/mesh.cpp: getFemSystem", "lib/nikfemm/src/mesh/mesh.hpp: computeGrad"]}
{"id": "C37", "title": "Total load equals total current", "statement": "For the magnetostatic assembly without magnets, the entries of the right-hand side sum to the integral of J over the mesh, and matrix rows sum to zero for every permeability vector.", "quantifier": "all meshes within the adjacency capacity", "why_tests_cant": "Conservation over every mesh.", "anchors": ["lib/nikfemm/src/magnetostatic/mesh.cpp: getFemSystem"]}
{"id": "C38", "title": "Gradient and curl are exact for affine fields", "statement": "On every non-degenerate element the computed gradient of a nodal field sampled from an affine function is its gradient; the curl is the gradient rotated by a quarter turn, so it is divergence free and its component normal to each shared edge is continuous across the edge.", "quantifier": "all meshes, all affine and all nodal fields", "why_tests_cant": "Universal over meshes and fields.", "anchors": ["lib/nikfemm/src/mesh/mesh.hpp: computeGrad, computeCurl"]}
{"id": "C39", "title": "Kelvin transform maps the outside into the circle and back", "statement": "The centred Kelvin transform leaves fixed points on the circle, maps p to the point of the same ray with product of distances R^2, is its own inverse away from the clamped core, and moves only vertices with marker 0; every vertex gets a finite position.", "quantifier": "all meshes, all radii", "why_tests_cant": "Boundary at the origin and clamp radius.", "anchors": ["lib/nikfemm/src/mesh/mesh.hpp: kelvinTransformCentered"]}
{"id": "C40", "title": "Area, mass, barycentre and inertia are consistent", "statement": "computeMass is density times computeAreaIntegral; the area is additive over elements and independent of vertex numbering; the barycentre lies in the bounding box and moves with a translation of the vertices; the inertia moment is non-negative and minimal about the barycentre.", "quantifier": "all meshes and polygons", "why_tests_cant": "Universal integral identities.", "anchors": ["lib/nikfemm/src/mesh/mesh.hpp: computeAreaIntegral, computeMass, computeBarycenter, computeInertiaMoment"]}
{"id": "C41", "title": "Permeability look-up is memory safe and positive", "statement": "getMu returns a positive finite value for every non-negative induction and every BH curve with at least two strictly increasing positive points.", "quantifier": "all BH curves and inductions", "why_tests_cant": "The failing branch is reached only between the last two curve points.", "anchors": ["lib/nikfemm/src/magnetostatic/properties.cpp: getMu"]}
{"id": "C42", "title": "Permeability relaxation keeps mu positive and bounded", "statement": "updateMu leaves every entry between its previous value and the newly looked-up permeability, so positive stays positive, for every iteration number.", "quantifier": "all iterations, all vectors, all materials", "why_tests_cant": "Invariant over unbounded iterations.", "anchors": ["lib/nikfemm/src/magnetostatic/simulation.cpp: updateMu"]}
{"id": "C43", "title": "Voltage is imposed on the nearest node", "statement": "setVoltage(p,v) fixes a node whose distance to p is minimal among all nodes (of the chosen layer); after any sequence of calls every addressed node has the value of the last call addressing it.", "quantifier": "all meshes, points and call histories", "why_tests_cant": "Ties and repeated calls.", "anchors": ["lib/nikfemm/src/current_density/simulation.cpp: setVoltage", "lib/nikfemm/src/current_density/multilayer_simulation.cpp: setVoltage"]}
{"id": "C44", "title": "Layers do not interfere except through interconnections", "statement": "The multilayer system restricted to layer k is layer k's own system; entries between different layers are zero unless created by an interconnection; every node of every layer has its own unknown.", "quantifier": "all numbers of layers and layer sizes", "why_tests_cant": "Offset arithmetic for all layer counts.", "anchors": ["lib/nikfemm/src/current_density/multilayer_simulation.cpp: generateSystem"]}
{"id": "C45", "title": "Interconnections conserve current", "statement": "Adding resistive interconnections keeps the matrix symmetric with zero row sums, and each one contributes conductance 1/R between its two nodes, for any number of interconnections, including several between the same nodes.", "quantifier": "all interconnection lists and resistances", "why_tests_cant": "Repeated or self interconnections.", "anchors": ["lib/nikfemm/src/current_density/multilayer_simulation.cpp: generateSystem, CurrentDensityInterconnection"]}
{"id": "C46", "title": "Power density is non-negative and sums to the dissipated power", "statement": "computePowerDensity is non-negative on every element for non-negative conductivity; weighted with area and depth it sums to V^T A V, for every layer.", "quantifier": "all voltages and meshes", "why_tests_cant": "Universal identity between assembly and post-processing.", "anchors": ["lib/nikfemm/src/current_density/multilayer_simulation.cpp: computePowerDensity", "lib/nikfemm/src/current_density/simulation.cpp"]}
{"id": "C47", "title": "Force weighting problem does not depend on hash order", "statement": "The boundary elimination used by the force and torque integrals gives the same system for every iteration order of the hash map, and its solution takes the prescribed values on the boundary nodes.", "quantifier": "all assembled systems, all iteration orders", "why_tests_cant": "The C++ standard leaves the order unspecified; a test sees one order.", "anchors": ["lib/nikfemm/src/magnetostatic/simulation.cpp: computeForceIntegrals, computeTorqueIntegral"]}
{"id": "C48", "title": "Edge-to-triangle map is fully initialised", "statement": "For every triangulation, every recorded edge neighbour used by the block integrals refers to a triangle of the mesh.", "quantifier": "all triangulations", "why_tests_cant": "Boundary edges have one triangle only.", "anchors": ["lib/nikfemm/src/magnetostatic/simulation.cpp: getSurroundingRegionBlockIntegralAssets"]}
{"id": "C49", "title": "Infinite boundary pins the three farthest nodes", "statement": "addDirichletInfiniteBoundaryConditions sets potential 0 on three distinct nodes that are farthest from the origin, for every mesh with at least three nodes.", "quantifier": "all meshes", "why_tests_cant": "Ties, ordering and small meshes.", "anchors": ["lib/nikfemm/src/magnetostatic/mesh.cpp: addDirichletInfiniteBoundaryConditions"]}
{"id": "C50", "title": "Magnet surface currents are counted once", "statement": "Each magnetised region contributes the surface current of each of its boundary edges exactly once and the net surface current of a closed magnet boundary is zero.", "quantifier": "all drawings and magnets", "why_tests_cant": "Multiplicity depends on polygon vertex counts and nesting.", "anchors": ["lib/nikfemm/src/magnetostatic/mesh.cpp: getFemSystem"]}
{"id": "C51", "title": "limit, map and jet colour stay in range", "statement": "limit(x,a,b) lies in [a,b] when a<=b and equals x inside it; map is affine and sends endpoints to endpoints; val2jet yields components in [0,255].", "quantifier": "all numbers", "why_tests_cant": "Universal range statements.", "anchors": ["lib/nikfemm/src/utils/utils.hpp: map, limit", "lib/nikfemm/src/utils/utils.cpp: val2jet"]}
{"id": "C52", "title": "Mesh objects own their buffers", "statement": "Any sequence of creating, meshing, copying and destroying mesh objects frees every buffer exactly once.", "quantifier": "all lifecycles", "why_tests_cant": "Ownership over all histories.", "anchors": ["lib/nikfemm/src/mesh/mesh.hpp: Mesh destructor, mesh()"]}
{"id": "C53", "title": "Bounding box and plot transform", "statement": "The mesh bounding box contains every vertex and is the smallest such box; the drawing plot maps every point into the image.", "quantifier": "all meshes and drawings", "why_tests_cant": "Coordinates of any sign.", "anchors": ["lib/nikfemm/src/mesh/mesh.hpp: getMeshBoundingBox, getMeshScaleOffset", "lib/nikfemm/src/drawing/drawing.hpp: plotRend"]}
{"id": "C54", "title": "Thread pool runs every task exactly once and stops", "statement": "Every task pushed before Stop is executed exactly once by one worker, tasks are started in FIFO order, and Stop returns after all of them finished, for every interleaving.", "quantifier": "all schedules, worker counts and task lists", "why_tests_cant": "All interleavings.", "anchors": ["examples/mtest/main.cpp: ThreadPool"]}
{"id": "C55", "title": "As many iterations as unknowns are enough", "statement": "In exact arithmetic, for a symmetric positive definite matrix, a non-zero tolerance and an iteration limit of at least the number of unknowns, the preconditioned CG solvers stop before the limit with a residual below the tolerance; plain CG does so whenever its epsilon clamp cannot fire.", "quantifier": "all SPD systems, starting points, tolerances, all limits >= size", "why_tests_cant": "Finite termination is a theorem about conjugacy of all search directions, for every size.", "anchors": ["lib/nikfemm/src/algebra/solvers.cpp: conjugateGradientSolver, preconditionedJacobiConjugateGradientSolver, preconditionedSSORConjugateGradientSolver, preconditionedIncompleteCholeskyConjugateGradientSolver"]}
{"id": "C56", "title": "On a full pattern the Cholesky preconditioner is the inverse", "statement": "For an SPD matrix whose upper triangle is completely stored nothing is dropped, so applying the preconditioner to r yields the solution z of A z = r.", "quantifier": "all SPD matrices with full pattern, all r", "why_tests_cant": "Fails only when an entry of the inverse factor vanishes by cancellation.", "anchors": ["lib/nikfemm/src/algebra/solvers.cpp: incompleteCholeskyDecomposition"]}
{"id": "C57", "title": "The drawing's feature size is the smallest point-to-segment distance", "statement": "getCurrentEpsilon returns the smallest distance between a point of the drawing and a segment of which it is not an end (or the largest double if there is no such pair), and translating the drawing does not change it.", "quantifier": "all drawings without degenerate segments", "why_tests_cant": "A minimum over all pairs of an unbounded drawing.", "anchors": ["lib/nikfemm/src/drawing/drawing.hpp: getCurrentEpsilon"]}
{"id": "C58", "title": "Refining points are placed inside the drawing and away from its segments", "statement": "Every point that addRefiningPoints adds is one hundredth of the feature size away from a corner, inside some polygon, and at least half of that away from the segments at the corner; at most 18 points are added per point. Every point that refineMeshAroundMagnets adds lies inside a polygon around a magnetised region.", "quantifier": "all drawings", "why_tests_cant": "Holds for every geometry, not a sample.", "anchors": ["lib/nikfemm/src/drawing/drawing.hpp: addRefiningPoints", "lib/nikfemm/src/magnetostatic/mesh.cpp: refineMeshAroundMagnets"]}
{"id": "C59", "title": "Field problems have exactly one solution", "statement": "On every mesh whose vertices are all used, with positive material coefficients, holding at least one node per connected part makes the assembled system symmetric positive definite: it has exactly one solution, that solution takes the held values, satisfies the remaining equations, and the nodal currents add up to zero. With no node held the system is singular.", "quantifier": "all meshes with at most 18 triangles per vertex, all positive materials, all boundary values", "why_tests_cant": "Definiteness is a statement about all vectors on all meshes.", "anchors": ["lib/nikfemm/src/current_density/mesh.cpp: getFemSystem", "lib/nikfemm/src/magnetostatic/mesh.cpp: getFemSystem, addDirichletInfiniteBoundaryConditions"]}
{"id": "C60", "title": "The transformed outside is glued to the mesh without tearing", "statement": "addKelvinBoundaryConditions keeps all vertices and triangles of the mesh, adds one vertex per inner vertex of the outside and one triangle per triangle, places every corner at the Kelvin image of its original, gives the new triangles the air region, and joins the boundary vertices; every boundary vertex of the outside finds its partner.", "quantifier": "all pairs of meshes", "why_tests_cant": "Depends on exact coincidence of coordinates produced by two meshing runs.", "anchors": ["lib/nikfemm/src/mesh/mesh.hpp: addKelvinBoundaryConditions"]}
{"id": "C62", "title": "The length scale of the mesh is half its shortest edge", "statement": "computeEpsilon returns half the length of the shortest triangle edge; it is positive on every mesh without degenerate triangles.", "quantifier": "all meshes with at least one triangle", "why_tests_cant": "A minimum over an unbounded mesh.", "anchors": ["lib/nikfemm/src/mesh/mesh.hpp: computeEpsilon"]}
{"id": "C64", "title": "Permeability is the one of the BH curve", "statement": "getMu(B) equals B/H, where H is the field strength of the piecewise linear BH curve at induction B.", "quantifier": "all BH curves and inductions", "why_tests_cant": "Interpolation between points: every real induction inside every segment.", "anchors": ["lib/nikfemm/src/magnetostatic/properties.cpp: getMu"]}
{"id": "C65", "title": "The magnetostatic solution satisfies the field equations", "statement": "When solve of a magnetostatic problem with proper materials and a grounded outer boundary reports convergence, the returned potential satisfies the discrete field equations to the solver's tolerance with the permeabilities that the materials have at the computed induction; with linear materials it always converges.", "quantifier": "all meshes of up to 100000 nodes, materials and current densities", "why_tests_cant": "Every mesh and every material curve; a plausible-looking field hides a wrong permeability.", "anchors": ["lib/nikfemm/src/magnetostatic/simulation.cpp: solve, updateMu", "lib/nikfemm/src/magnetostatic/properties.cpp: getMu"]}
{"id": "C67", "title": "A held conductor is solved", "statement": "For a conductor with positive conductivities in which every node is connected, through triangles or interconnections, to a node given a voltage, generateSystem, setVoltage and solve succeed: the system has exactly one solution and solve returns a vector whose residual is below the tolerance of the solver, for one layer and for several.", "quantifier": "all meshes of up to 100000 nodes, layer stacks and call sequences", "why_tests_cant": "Every mesh and every combination of voltages; success of an iterative solver.", "anchors": ["lib/nikfemm/src/current_density/simulation.cpp: setVoltage, solve", "lib/nikfemm/src/current_density/multilayer_simulation.cpp: generateSystem, setVoltage, solve"]}
{"id": "C68", "title": "Force on a body inside several outlines", "statement": "The force, torque and stress on the body at a point are returned for every body enclosed by one or more other outlines of the drawing, using the innermost of them as the surrounding region.", "quantifier": "all drawings, points, meshes and fields", "why_tests_cant": "Depends on the nesting of arbitrary polygons.", "anchors": ["lib/nikfemm/src/magnetostatic/simulation.cpp: getSurroundingRegionBlockIntegralAssets, computeForceIntegrals, computeTorqueIntegral, computeStressIntegral"]}
{"id": "C69", "title": "Force of a field that vanishes somewhere is finite", "statement": "The force, torque and stress returned are finite numbers for every field of finite values, including a field that is zero in part of the mesh.", "quantifier": "all meshes and fields", "why_tests_cant": "Every field; division by a zero pivot occurs only where the field vanishes.", "anchors": ["lib/nikfemm/src/magnetostatic/simulation.cpp: computeForceIntegrals, computeTorqueIntegral, computeStressIntegral"]}
{"id": "C70", "title": "A uniform field exerts no net force", "statement": "If the induction is the same in all triangles, the force on every body is zero.", "quantifier": "all meshes, bodies and uniform fields", "why_tests_cant": "Exact cancellation over arbitrary triangulations.", "anchors": ["lib/nikfemm/src/magnetostatic/simulation.cpp: computeForceIntegrals"]}
{"id": "C71", "title": "The force is quadratic in the field", "statement": "Multiplying the induction by k multiplies the force by k squared; in particular reversing the field leaves the force unchanged.", "quantifier": "all meshes, bodies, fields and factors", "why_tests_cant": "Relates two runs for every mesh and field.", "anchors": ["lib/nikfemm/src/magnetostatic/simulation.cpp: computeForceIntegrals, getSurroundingRegionBlockIntegralAssets"]}
{"id": "C72", "title": "The weighting problem of the force and the torque", "statement": "The system solved for the weights of a force integral is, before nodes are held, the stationarity of the sum over the triangles of area times w times the squared x component of the Maxwell force density; for a torque integral the density is the torque density about the given centre. The triangle weights w lie between 1 and 1000. If all triangles have the same error there is no such system.", "quantifier": "all non-degenerate meshes, fields, error tables and centres", "why_tests_cant": "An identity of quadratic forms over arbitrary meshes and fields.", "anchors": ["lib/nikfemm/src/magnetostatic/simulation.cpp: computeForceIntegrals, computeTorqueIntegral", "lib/nikfemm/src/utils/utils.hpp: map, limit"]}
{"id": "C73", "title": "Force and torque are integrals over the shell", "statement": "The force returned is depth/mu0 times the sum, over the triangles of the shell around the body, of area times the Maxwell force density of the field and the gradient of the weights; the torque is the same sum of moments about the given centre taken at the centroids.", "quantifier": "all non-degenerate meshes, fields, depths and centres", "why_tests_cant": "A formula for every mesh and field.", "anchors": ["lib/nikfemm/src/magnetostatic/simulation.cpp: computeForceIntegrals, computeTorqueIntegral"]}
{"id": "C74", "title": "Turning the problem turns the force", "statement": "If the mesh, the outlines and the field are turned by an angle, the force returned is turned by the same angle.", "quantifier": "all meshes, fields and angles", "why_tests_cant": "Relates two runs for every mesh, field and angle.", "anchors": ["lib/nikfemm/src/magnetostatic/simulation.cpp: computeForceIntegrals"]}
{"id": "C75", "title": "Torque about another centre", "statement": "The torque about c' equals the torque about c plus the moment (c - c') x force.", "quantifier": "all meshes, fields and pairs of centres", "why_tests_cant": "Relates three runs for every mesh and field.", "anchors": ["lib/nikfemm/src/magnetostatic/simulation.cpp: computeTorqueIntegral, computeStressIntegral"]}
{"id": "C66", "title": "Interconnections are surrounded by rings clear of the drawing", "statement": "For every interconnection, generating the multilayer system draws both ends in their layers and around each end two rings of ten points, symmetric about the end, at a half and a quarter of the distance to the nearest segment of the layer; every ring point stays at least half that distance away from every segment, nothing else of the drawings changes, and no point is drawn twice.", "quantifier": "all lists of interconnections, layers and drawings without degenerate segments", "why_tests_cant": "Distances to all segments of every drawing.", "anchors": ["lib/nikfemm/src/current_density/multilayer_simulation.cpp: generateSystem"]}
{"id": "C76", "title": "Magnetostatic materials are equal only if every component is", "statement": "Two magnetostatic materials compare equal exactly when their permeability, current density and BH curve are equal and their magnetisations differ by less than 1e-9.", "quantifier": "all pairs of materials", "why_tests_cant": "All component values and curve lengths.", "anchors": ["lib/nikfemm/src/magnetostatic/properties.cpp: operator=="]}
{"id": "C77", "title": "Wrong calls from Python raise and change nothing", "statement": "A call of the Python interface with the wrong number or types of arguments raises a Python exception; a call that raises leaves the simulation as it was; no call ends the interpreter or is undefined behaviour.", "quantifier": "all argument lists built from floats, ints, bools, lists, systems and other objects, all simulation states", "why_tests_cant": "All shapes of Python arguments in all states.", "anchors": ["python/nikfemm.cpp"]}
{"id": "C78", "title": "An accepted Python call is the C++ call on the numbers given", "statement": "The constructor, draw_rectangle, draw_region, draw_polygon, add_interconnection, set_voltage and generate_system succeed exactly when the arguments decode to points, numbers and an existing layer and the C++ call succeeds, and then have exactly its effect on that layer and no other; ints and floats are accepted for every number.", "quantifier": "all argument lists and states", "why_tests_cant": "All argument lists and states.", "anchors": ["python/nikfemm.cpp"]}
{"id": "C79", "title": "The lists returned to Python fit together", "statement": "generate_system returns the vertices of the layers one after the other and, per layer, triangles whose entries are the rows of their corners in that list; solve returns one row (layer, x, y, voltage) per unknown, triangle rows (layer, rows of the corners) and power rows (layer, power) in the order of the triangles.", "quantifier": "all lists of meshes, all systems", "why_tests_cant": "All numbers and sizes of layers.", "anchors": ["python/nikfemm.cpp"]}
{"id": "C80", "title": "The regions of a force integral", "statement": "The force or torque at a point is taken on the innermost outline around the point, in an outline that encloses it, without the other outlines in that region that do not lie in the body; every node is classified by the library's point-in-polygon test with the mesh's length scale; the stress integral is the pair of the force and the torque about the given centre.", "quantifier": "all meshes, drawings, fields and points, every scalar type", "why_tests_cant": "All arrangements of outlines.", "anchors": ["lib/nikfemm/src/magnetostatic/simulation.cpp: getSurroundingRegionBlockIntegralAssets, computeStressIntegral"]}
{"id": "C61", "title": "The mesher is started with the angle and area asked for", "statement": "Meshing a drawing starts the mesher with exactly the minimum angle and the maximum element area that were asked for (the area to 17 decimals) and a fixed set of other options, for every angle and every positive area.", "quantifier": "all integers as angle, all binary64 numbers as area", "why_tests_cant": "All pairs of an angle and an area, including the ends of the range, where a fixed-size buffer overflows.", "anchors": ["lib/nikfemm/src/mesh/mesh.hpp:219-220", "lib/nikfemm/src/triangle/triangle.cpp:3295-3571"]}
{"id": "C63", "title": "The automatic boundary surrounds the drawing", "statement": "Generating a magnetostatic system moves the drawing so that its centroid is the origin, surrounds it with a closed regular polygon whose sides follow from the largest element area, puts air between the drawing and the polygon, and leaves everything else as drawn; all drawn points are inside the polygon, the air seed is in no drawn outline, and the transformed outside gets the same boundary points.", "quantifier": "all drawings, areas and materials; exact arithmetic for the geometry, every scalar type for the agreement of the two boundaries", "why_tests_cant": "All drawings and areas; correctness depends on where the centroid lies relative to the origin.", "anchors": ["lib/nikfemm/src/magnetostatic/simulation.cpp:42-76", "lib/nikfemm/src/mesh/mesh.hpp:287-292"]}
{"id": "C81", "title": "Refinement happens exactly at the sharp corners", "statement": "Refining a drawing adds points exactly around the drawn points where two segments meet at less than 120 degrees: of the 18 places 20 degrees apart at one hundredth of the feature size, those that lie in a drawn outline and at least half that distance away from the segments at the corner, in this order; nothing is added elsewhere and the call never fails.", "quantifier": "all drawings whose points are distinct under operator== and whose segments have two different ends (true of every drawing built from outlines with edges of at least twice the tolerance), exact arithmetic", "why_tests_cant": "All drawings, all angles and orders of segments at a corner.", "anchors": ["lib/nikfemm/src/drawing/drawing.hpp:282-357", "lib/nikfemm/src/geometry/vector.hpp:153-167"]}
{"id": "C82", "title": "Refining around a magnet completes and keeps its distance", "statement": "When a magnetostatic system is generated with refine_magnets, the edges of every innermost outline around a magnet seed get additional points at equal steps of a tenth of the feature size, placed 0.11 feature sizes to the inner side, each at least a tenth of the feature size from every outline vertex and every other point; the call completes.", "quantifier": "all drawings whose segments join different points, all magnetisations, exact arithmetic; every rectangle for the refutation", "why_tests_cant": "All drawings; whether the call completes depends on points added along earlier edges.", "anchors": ["lib/nikfemm/src/magnetostatic/mesh.cpp:235-339", "lib/nikfemm/src/drawing/drawing.hpp:261-280"]}
{"id": "C83", "title": "Queries about one element", "statement": "For every element with existing corners, the barycentre returned is the mean of the corners and lies inside the element; the signed, doubled and absolute areas agree with each other and with the area of the three points; a node inside the element splits it into three triangles whose areas add up; the containment test accepts only interior points, accepts the barycentre and does not depend on the order of the corners, for elements whose doubled area is at least three rounding units; an element number that does not exist is undefined behaviour.", "quantifier": "all meshes, elements and points, exact arithmetic; any arithmetic for the range", "why_tests_cant": "All triangles and points, including nearly flat elements.", "anchors": ["lib/nikfemm/src/mesh/mesh.hpp:54-93", "lib/nikfemm/src/geometry/common.hpp:26-32"]}
{"id": "C84", "title": "Every part of the drawing gets the material drawn in it", "statement": "The mesher is given exactly the points, segments and material seeds of the drawing. Of the triangulation it removes exactly the triangles that can be reached from outside without crossing a drawn segment. Every other triangle has the material of the seed that lies in the same part of the drawing, the last one drawn if there are several; a part without a seed has the default material; the points of the drawing that lie in a removed part do not disturb the problem.", "quantifier": "all drawings, all triangulations (given by neighbours and segments), all positions of the seeds", "why_tests_cant": "All shapes of parts and all orders of seeds.", "anchors": ["lib/nikfemm/src/mesh/mesh.hpp:172-246", "lib/nikfemm/src/triangle/triangle.cpp:12616-13210", "lib/nikfemm/src/current_density/mesh.cpp:8-80"]}
{"id": "C85", "title": "The assembly with cotangent weights gives the finite element system", "statement": "CurrentDensityMesh::getFemSystemCotangentWeights gives the same linear system as CurrentDensityMesh::getFemSystem: every pair of vertices gets minus half the sum of the cotangents opposite to its side, weighted with the conductivities and the depth.", "quantifier": "all triangulations without degenerate triangles, with at most nine triangles at a vertex and two at a side", "why_tests_cant": "All triangulations.", "anchors": ["lib/nikfemm/src/current_density/mesh.cpp:12-80", "lib/nikfemm/src/current_density/mesh.cpp:82-197"]}
{"id": "C86", "title": "Python programs get their memory back", "statement": "When a Python program drops what generate_system or solve returned, everything those calls allocated is freed. A constructor call that raises an exception leaves nothing behind, and dropping a simulation frees it.", "quantifier": "all numbers of layers, nodes and triangles, all programs calling the methods any number of times, all argument lists of the constructor", "why_tests_cant": "All programs; a leak shows in no returned value.", "anchors": ["python/nikfemm.cpp:49-101", "python/nikfemm.cpp:138-188", "python/nikfemm.cpp:204-260"]}
{"id": "C87", "title": "Voltages add up and do not depend on scale", "statement": "The voltages of a conductor are linear in the imposed voltages. They do not change when all conductivities are multiplied by a factor or the depth changes, or when the drawing with its electrodes is moved, turned, mirrored or scaled; the last four leave the dissipated power unchanged as well.", "quantifier": "all meshes, materials, electrodes, factors and similarities of the plane", "why_tests_cant": "All meshes and all similarities; a test compares a few pairs of runs up to solver error.", "anchors": ["lib/nikfemm/src/current_density/mesh.cpp:8-92", "lib/nikfemm/src/current_density/simulation.cpp: generateSystem, setVoltage, solve"]}
{"id": "C88", "title": "No voltage beyond the imposed ones", "statement": "Every voltage of a conductor with positive conductivities lies between the smallest and the largest imposed voltage.", "quantifier": "all meshes, materials and electrodes", "why_tests_cant": "All meshes; whether it fails depends on angles that no test controls.", "anchors": ["lib/nikfemm/src/current_density/mesh.cpp:8-92", "lib/nikfemm/src/current_density/simulation.cpp: generateSystem, setVoltage, solve"]}
{"id": "C89", "title": "A uniform field is reproduced exactly", "statement": "In a conductor of one material whose border nodes are held at the values of an affine function of position, every node gets the value of that function.", "quantifier": "all conforming meshes, all affine functions", "why_tests_cant": "All meshes; a test reaches solver tolerance on a few.", "anchors": ["lib/nikfemm/src/current_density/mesh.cpp:8-92", "lib/nikfemm/src/current_density/simulation.cpp: generateSystem, setVoltage, solve"]}
{"id": "C90", "title": "Least power, and currents that balance", "statement": "Of all node voltages that agree with the imposed ones, the solution dissipates the least power, and no other dissipates as little. Raising conductivities does not lower the power drawn by the same electrodes. No current leaves a node that is not held; the currents of the electrodes add up to zero, and voltage times current adds up to the dissipated power.", "quantifier": "all meshes, materials and electrodes", "why_tests_cant": "A minimum over all node voltages and a comparison over all pairs of materials.", "anchors": ["lib/nikfemm/src/current_density/mesh.cpp:8-92", "lib/nikfemm/src/current_density/simulation.cpp: generateSystem, setVoltage, solve"]}
{"id": "C91", "title": "Currents and magnets superpose", "statement": "With linear materials the magnetic potential is linear in the current densities and magnetisations of the materials. Permeabilities k times as large make it k times as large. Enlarging a drawing without magnets k times about the origin, with the current densities kept, makes it k^2 times as large; turning or mirroring it about the origin leaves it unchanged.", "quantifier": "all meshes, materials, factors and similarities about the origin", "why_tests_cant": "All meshes and all materials; the failure needs magnetisations below 1e-9.", "anchors": ["lib/nikfemm/src/magnetostatic/mesh.cpp:8-233", "lib/nikfemm/src/magnetostatic/simulation.cpp: generateSystem, solve"]}
{"id": "C92", "title": "Reciprocity and energy of the magnetic field", "statement": "Without magnets, the flux that a first set of currents sends through the circuit of a second is the flux that the second sends through the first. The integral of B times H equals the integral of current density times potential.", "quantifier": "all meshes, materials and currents", "why_tests_cant": "All pairs of current distributions on all meshes.", "anchors": ["lib/nikfemm/src/magnetostatic/mesh.cpp:8-233", "lib/nikfemm/src/magnetostatic/simulation.cpp: generateSystem, solve"]}
{"id": "C93", "title": "The potential minimises the energy", "statement": "Without magnets and with positive permeabilities, of all potentials vanishing at the held nodes the solution has the least field energy minus flux linkage, and no other has as little. Raising permeabilities never lowers the flux linked with the same currents.", "quantifier": "all meshes, materials and currents", "why_tests_cant": "A minimum over all potentials and a comparison over all pairs of materials.", "anchors": ["lib/nikfemm/src/magnetostatic/mesh.cpp:8-233", "lib/nikfemm/src/magnetostatic/simulation.cpp: generateSystem, solve"]}
{"id": "C94", "title": "Forward currents give a nonnegative potential", "statement": "Without magnets and with positive permeabilities, current densities that are nowhere negative give a potential that is nowhere negative, and raising current densities lowers the potential nowhere.", "quantifier": "all meshes, materials and currents", "why_tests_cant": "All meshes; whether it fails depends on angles that no test controls.", "anchors": ["lib/nikfemm/src/magnetostatic/mesh.cpp:8-233", "lib/nikfemm/src/magnetostatic/simulation.cpp: generateSystem, solve"]}
{"id": "C95", "title": "Voltages of joined layers superpose", "statement": "The voltages of a stack of layers are linear in the imposed voltages, whatever the interconnections. Multiplying every conductivity by k and dividing every interconnection resistance by k changes no voltage.", "quantifier": "all layers, interconnections, electrodes, voltages and factors", "why_tests_cant": "All stacks and all combinations of voltages.", "anchors": ["lib/nikfemm/src/current_density/multilayer_simulation.cpp: generateSystem, setVoltage", "lib/nikfemm/src/current_density/mesh.cpp: getFemSystem"]}
{"id": "C96", "title": "No voltage of a stack beyond the imposed ones", "statement": "With positive conductivities, depths and resistances and every node joined to an electrode, all voltages of all layers lie between the lowest and the highest imposed voltage.", "quantifier": "all layers, interconnections and electrodes", "why_tests_cant": "All meshes and wirings; the failures need obtuse angles or two interconnections at the same place.", "anchors": ["lib/nikfemm/src/current_density/multilayer_simulation.cpp: generateSystem, setVoltage", "lib/nikfemm/src/current_density/mesh.cpp: getFemSystem"]}
{"id": "C97", "title": "Power and currents of a stack balance", "statement": "Of all voltages with the imposed values those computed dissipate the least power in layers and interconnections. Raising conductivities, lowering resistances or adding interconnections never lowers the power. No current leaves a node that is not held, counting the current (V1 - V2)/R of each interconnection that ends there; electrode currents add up to zero; voltage times current adds up to the power.", "quantifier": "all layers, interconnections between different layers with at most one between two nodes, electrodes", "why_tests_cant": "A minimum over all voltages and balances over all stacks.", "anchors": ["lib/nikfemm/src/current_density/multilayer_simulation.cpp: generateSystem, setVoltage", "lib/nikfemm/src/current_density/mesh.cpp: getFemSystem"]}
{"id": "C98", "title": "Layers that are not joined are separate simulations", "statement": "Without interconnections the voltages of a stack are exactly those of one simulation per layer with the calls that name this layer; a stack of one layer is the single-layer simulation.", "quantifier": "all layers and electrodes", "why_tests_cant": "All numbers and sizes of layers and orders of calls.", "anchors": ["lib/nikfemm/src/current_density/multilayer_simulation.cpp: generateSystem, setVoltage", "lib/nikfemm/src/current_density/mesh.cpp: getFemSystem", "lib/nikfemm/src/current_density/simulation.cpp: setVoltage"]}
{"id": "C99", "title": "What solve returns follows its sources", "statement": "solve returns zero everywhere when every imposed voltage is zero, and, in magnetostatics, when there is no current and no magnet. Every imposed voltage is returned at its electrode up to the tolerance of the solver. Multiplying all imposed voltages by a factor multiplies what solve returns by that factor, up to rounding.", "quantifier": "all meshes, materials, electrodes, voltages and factors", "why_tests_cant": "All problems; and that scaling fails for every problem below some size of the voltages needs all factors.", "anchors": ["lib/nikfemm/src/current_density/simulation.cpp: solve, setVoltage", "lib/nikfemm/src/current_density/multilayer_simulation.cpp: solve, setVoltage", "lib/nikfemm/src/magnetostatic/simulation.cpp: solve", "lib/nikfemm/src/algebra/solvers.cpp"]}
{"id": "C100", "title": "Generating the system again gives the same problem", "statement": "Calling generateSystem again on the same simulation, for instance with another element size, gives the problem of the drawing as the user made it: the same frame of reference, the same boundary for the same element size, and no points drawn more than once.", "quantifier": "all drawings, any number of calls with any element sizes", "why_tests_cant": "Any number of calls on any drawing; each call alone looks right.", "anchors": ["lib/nikfemm/src/magnetostatic/simulation.cpp: generateSystem", "lib/nikfemm/src/current_density/multilayer_simulation.cpp: generateSystem", "lib/nikfemm/src/current_density/simulation.cpp: generateSystem"]}
{"id": "C101", "title": "Outlines that meet only at their vertices are all accepted", "statement": "A program that draws rectangles, circles, polygons and regions whose outlines meet only at common vertices completes without an exception, and the drawing then has exactly the vertices and edges asked for, each once, with polygons and regions in the order of the calls.", "quantifier": "all programs of such calls, any number of outlines", "why_tests_cant": "Acceptance of each outline depends on all those drawn before.", "anchors": ["lib/nikfemm/src/drawing/drawing.hpp: drawRectangle, drawCircle, drawPolygon, drawSegment, drawRegion", "lib/nikfemm/src/geometry/segment.hpp: segmentsIntersect"]}
{"id": "C102", "title": "The design example simulates the design it declares", "statement": "For every winding thickness, height and iron thickness the drawing of the design-optimisation example is accepted and each region's seed lies in its rectangle; the two windings together carry the declared total current of 1000; the mesh has the element size 0.001 that is passed; an optimisation step moves the design along the gradient of the force.", "quantifier": "all designs, all numbers of iterations", "why_tests_cant": "All real parameters, and a measured force in place of the solver.", "anchors": ["examples/gradient_descent_design_optimization/main.cpp", "lib/nikfemm/src/magnetostatic/simulation.hpp: generateSystem"]}
{"id": "C103", "title": "The moving magnets stay congruent and conserve momentum", "statement": "In the magnet-dynamics example each magnet drawn is, whatever its position and angle, a square of the same size around its centre with magnetisation of the same length; the drawing is accepted at every angle while the magnets are apart; with opposite forces the momentum is conserved and the centre of mass moves uniformly.", "quantifier": "all states of both bodies, all forces and torques, any number of turns", "why_tests_cant": "All angles and positions and any number of turns.", "anchors": ["examples/magnet_dynamic_simulation/main.cpp", "lib/nikfemm/src/geometry/polygon.hpp: translate, rotate", "lib/nikfemm/src/geometry/vector.hpp: rotate"]}
{"id": "C104", "title": "The motor drawing is balanced", "statement": "The motor drawn by the example has no net current and no net magnetisation, and the seed of every coil side lies inside its outline.", "quantifier": "all dimensions, currents, angles and numbers of poles", "why_tests_cant": "All parameters and pole numbers.", "anchors": ["examples/mtest/main.cpp: draw_motor"]}
{"id": "C105", "title": "Floating point answers do not depend on the order of the arguments", "statement": "In binary64 the distance, the comparison, the sum, the product and the midpoint of two points are the same number in either order (the sign of zero included, NaNs not told apart), for all doubles including NaN and infinities; a point equals itself exactly if its coordinates are finite; segments compare, measure and hash the same in either direction; inner products commute. Three points read backwards have the opposite orientation, and whether a polygon contains a point does not depend on the starting vertex or the direction of the outline, for coordinates below 2^400.", "quantifier": "all binary64 numbers, all vectors and all polygons", "why_tests_cant": "2^64 values per coordinate; rounding, signed zeros, NaN and overflow are the cases that tests miss.", "anchors": ["lib/nikfemm/src/geometry/vector.hpp: operator==, operator+, operator*, distance, midPoint", "lib/nikfemm/src/geometry/segment.cpp: length, operator==", "lib/nikfemm/src/geometry/segment.hpp: hash<Segment>", "lib/nikfemm/src/geometry/circle.cpp: operator==", "lib/nikfemm/src/geometry/common.hpp: geomOrientation", "lib/nikfemm/src/geometry/polygon.cpp: contains", "lib/nikfemm/src/algebra/math.cpp: dot"]}
{"id": "C106", "title": "Lengths and powers are never negative in floating point", "statement": "In binary64 the norms and square sums of vectors, the lengths and distances of points, the feature size of a drawing and the power densities for conductivities that are not negative never compare below zero, for all doubles; distances of points with coordinates below 2^400 are finite.", "quantifier": "all binary64 numbers, vectors, drawings, meshes and voltages", "why_tests_cant": "All values, NaN, infinities and signed zeros included.", "anchors": ["lib/nikfemm/src/algebra/math.cpp: squareSum, norm, dot", "lib/nikfemm/src/geometry/vector.hpp: norm, distance", "lib/nikfemm/src/geometry/segment.cpp: pointSegmentDistance", "lib/nikfemm/src/drawing/drawing.hpp: getCurrentEpsilon", "lib/nikfemm/src/current_density/multilayer_simulation.cpp: computePowerDensity"]}
{"id": "C107", "title": "Rounding errors are bounded and decisions that are not close are right", "statement": "In binary64, with u = 2^-53, the inner product of two vectors of n finite numbers differs from the exact one by at most 2(n+1)u times the sum of the absolute products plus 2n times 2^-1075, the norm by a relative 2(n+2)u plus an underflow term, and the distance of two points by a relative 10u plus 2^-535, whenever the result is finite. Two points are equal if their exact distance is at most 1e-9 - 1e-23 and different if it is at least 1e-9 + 1e-23. The orientation of three points, the test of a point against a triangle, the test of a point against a polygon and the intersection of two segments have the answer of exact arithmetic unless the exact turn is within about 1e-15 times the product of two distances of the threshold. On a dyadic grid, that is for coordinates that are integers of at most 25 bits times one power of two, orientation, triangle and polygon tests are exact without exception, so that points of the boundary of a polygon are always inside it.", "quantifier": "all vectors of finite doubles up to length 2^50, all points of finite doubles (below 2^400 where products could overflow), all polygons", "why_tests_cant": "A bound for every pair of operands and every length of the sums cannot be tested; the inputs that decide are those next to the threshold.", "anchors": ["lib/nikfemm/src/algebra/math.cpp: dot, squareSum, norm", "lib/nikfemm/src/geometry/vector.hpp: operator==, distance", "lib/nikfemm/src/geometry/common.hpp: geomOrientation, pointInTriangle", "lib/nikfemm/src/geometry/polygon.cpp: contains", "lib/nikfemm/src/geometry/segment.cpp: segmentsIntersect"]}
{"id": "C108", "title": "The sparse product adds each stored position once and its rounding error depends on the row only", "statement": "For every type of scalars, entry i of the product of a symmetric sparse matrix with a vector is the product of the diagonal entry with x_i, to which the products of the other stored positions of row i and column i are added, each exactly once. In binary64, with u = 2^-53, if the entry is finite it differs from the exact one by at most 2Nu times the sum of the absolute values of the terms plus 2N times 2^-1075, where N is the number of stored positions of that row, however large the matrix.", "quantifier": "all symmetric sparse matrices with a stored diagonal, all vectors of their size, all finite doubles, all rows with at most 2^52 stored positions", "why_tests_cant": "The order of the additions decides the last bits, which depend on every operand; a bound for every matrix and vector cannot be tested.", "anchors": ["lib/nikfemm/src/algebra/math.cpp: mult (symmetric)", "lib/nikfemm/src/algebra/csr.cpp"]}
{"id": "C109", "title": "The mesh generator's orientation test never returns a wrong sign without consulting its exact arithmetic", "statement": "In the vendored mesh generator, with the error constants found at start-up (epsilon is 2^-53, the first bound is (3+16u)u), whenever the orientation test answers without calling its adaptive stage, the number returned is finite and has the sign of the exact determinant of the three points: positive for a left turn, negative for a right turn, zero exactly for points in line. The adaptive stage is called only if the exact determinant is at most 8u times the sum of the absolute values of its two products, and is handed that sum up to a relative error of 8u. This holds for coordinates below 2^400 that are 0 or not below 2^-427; with coordinates around 2^-600 the test answers zero for a proper triangle, and with the option that switches exact arithmetic off it can answer zero for a right turn.", "quantifier": "all triples of points with finite binary64 coordinates below 2^400 in absolute value that are multiples of 2^-480, every number of rounds allowed for the start-up loop", "why_tests_cant": "The test is a race between rounding errors and a bound that is tight to a few units; inputs on which a wrong constant shows are far too rare to be found by sampling.", "anchors": ["lib/nikfemm/src/triangle/triangle.cpp:4899-4958 exactinit", "lib/nikfemm/src/triangle/triangle.cpp:5254-5301 counterclockwise"]}
{"id": "C110", "title": "The mesh generator's circle test never returns a wrong sign without consulting its exact arithmetic", "statement": "In the vendored mesh generator, whenever the incircle test answers without calling its adaptive stage, the number returned is finite, not zero, and has the sign of the exact determinant. For corners given counterclockwise it is positive exactly if the fourth point lies strictly inside the circle through the three corners and negative exactly if it lies strictly outside; hence points on the circle are always left to the adaptive stage.", "quantifier": "all quadruples of points with finite binary64 coordinates below 2^200 in absolute value that are multiples of 2^-200", "why_tests_cant": "A wrong term or constant matters only for points within rounding of a circle; a wrong answer sends the Delaunay flips into an endless loop or gives a bad mesh, for inputs no test hits.", "anchors": ["lib/nikfemm/src/triangle/triangle.cpp:4899-4958 exactinit", "lib/nikfemm/src/triangle/triangle.cpp:5904-5961 incircle"]}
{"id": "C111", "title": "The mesh generator's exact arithmetic stays inside its arrays", "statement": "When the orientation test of the vendored mesh generator falls back on exact arithmetic, it reads and writes only elements of its local arrays that exist.", "quantifier": "all points, all arrays of components of any lengths, every type of scalars", "why_tests_cant": "The extra element read is never used, so results are right and nothing shows without a sanitizer; the reads happen only for points that are in line up to rounding.", "anchors": ["lib/nikfemm/src/triangle/triangle.cpp:4974-5050 fast_expansion_sum_zeroelim", "lib/nikfemm/src/triangle/triangle.cpp:5165-5251 counterclockwiseadapt"]}
{"id": "C112", "title": "The mesh generator's exact sums, differences and products are exact", "statement": "In the vendored mesh generator, a rounded sum, difference or product of two doubles plus the error computed with it is the exact result, whenever the error is a finite number and, for products, the exact result is zero or at least 2^-969 in absolute value. The four components made from two products add up to their exact difference. The sum of two expansions adds up to the exact sum of all the components, if the first component of each is not larger than the second one unless that is zero. Hence the adaptive orientation test starts from the exact determinant of the rounded differences, which is that of the points if the differences are exact.", "quantifier": "all finite doubles and all expansions of finite doubles of any length whose results are finite", "why_tests_cant": "Exactness is a statement about every pair of 64-bit numbers.", "anchors": ["lib/nikfemm/src/triangle/triangle.cpp:4780-4868 Two_Sum, Two_Diff, Fast_Two_Sum, Split, Two_Product, Two_Two_Diff", "lib/nikfemm/src/triangle/triangle.cpp:4974-5050 fast_expansion_sum_zeroelim", "lib/nikfemm/src/triangle/triangle.cpp:5165-5251 counterclockwiseadapt"]}
{"id": "C113", "title": "Every answer of the mesh generator's orientation test has the right sign", "statement": "If the coordinates of three points are doubles that are multiples of 2^-440 and below 2^400 in absolute value, then every number returned by the orientation test of the vendored mesh generator, at whichever of its stages, is finite and has the sign of the exact determinant of the three points; it is zero just for points in line. Answers for the points in another order agree: rotating them keeps the sign, exchanging two of them reverses it. If the differences of the coordinates are doubles, in particular for integer coordinates below 2^52, the test always returns a number.", "quantifier": "all triples of points in that range; all triples of points with integer coordinates below 2^52", "why_tests_cant": "The later stages only see points that are in line up to rounding, and their error bounds leave no margin that sampling could show: the constants are exact to the second order of the rounding unit.", "anchors": ["lib/nikfemm/src/triangle/triangle.cpp:5165-5251 counterclockwiseadapt", "lib/nikfemm/src/triangle/triangle.cpp:5265-5301 counterclockwise", "lib/nikfemm/src/triangle/triangle.cpp:4926-4957 exactinit"]}
{"id": "C114", "title": "The mesh generator's product of an expansion and a number is exact and stays inside its arrays", "statement": "The routine of the vendored mesh generator that multiplies an expansion of n >= 1 components by a number reads just those n components, writes between one and 2n components, and never touches anything else. With double precision numbers, if every component is zero or at least four times as large as each earlier one, every product of a component and the number is zero or at least 2^-969, and the result is finite, then the exact sum of the components of the result is the exact product. Without the distance between the components this is false.", "quantifier": "all expansions of any length, all numbers, whatever the arrays hold after the components", "why_tests_cant": "The error of a wrong low-order component is far below what a comparison in double precision shows, and the length of the expansion is unbounded.", "anchors": ["lib/nikfemm/src/triangle/triangle.cpp:5066-5114 scale_expansion_zeroelim", "lib/nikfemm/src/triangle/triangle.cpp:4831-4837 Two_Product_Presplit"]}
