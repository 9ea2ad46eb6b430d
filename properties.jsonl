{"id": "C01", "title": "Primitive ids are fresh and stable", "statement": "Every successful add_primitive (and add_point2/add_line/add_arc) returns an id that no earlier add on this sketch returned, even if the older primitive was deleted meanwhile; from then on get_primitive_by_id(id) yields exactly that primitive until delete_primitive(id), and no other entry changes.", "quantifier": "all histories of API calls on one sketch starting from Sketch::new() with fewer than 2^64 adds", "why_tests_cant": "Ids depend on the whole add/delete history; a test exercises a few histories only.", "anchors": ["src/sketch/mod.rs: Sketch::add_primitive, delete_primitive, get_primitive_by_id", "src/sketch/mod.rs: Sketch::add_point2, add_line, add_arc"]}
{"id": "C02", "title": "A primitive is in the sketch at most once, and id lookup is a bijection", "statement": "At any time no primitive cell is registered under two ids. Adding a cell that is already present is rejected and changes nothing; the error is PrimitiveAlreadyInSketch whenever the cells it refers to are present. get_primitive_id and get_primitive_by_id are inverse to each other on the registered primitives, and get_all_points lists exactly the registered points with their ids.", "quantifier": "all reachable sketches, all cells and ids", "why_tests_cant": "It is an invariant over arbitrary interleavings of adds, deletes and setters.", "anchors": ["src/sketch/mod.rs: add_primitive, get_primitive_id, get_primitive_by_id, get_all_points", "src/primitives/mod.rs: PartialEq for PrimitiveCell"]}
{"id": "C03", "title": "References are closed", "statement": "If a history never calls delete_primitive and never re-points a primitive or a constraint with a setter, then every primitive referenced by a registered primitive or constraint is itself registered. add_primitive/add_constraint with an unregistered reference returns MissingSketchReferences.", "quantifier": "all histories without delete_primitive and re-pointing setters; all arguments", "why_tests_cant": "Quantifies over unbounded histories and aliasing patterns.", "anchors": ["src/sketch/mod.rs: add_primitive, add_constraint", "src/primitives/*.rs: references", "src/constraints/**: references"]}
{"id": "C04", "title": "Deleting a primitive cannot leave dangling references", "statement": "After delete_primitive succeeds, no registered primitive or constraint refers to a primitive that is not registered.", "quantifier": "all reachable sketches and ids", "why_tests_cant": "The claim is universal over reference graphs.", "anchors": ["src/sketch/mod.rs: delete_primitive"]}
{"id": "C05", "title": "Constraints are kept once, in insertion order", "statement": "add_constraint appends the constraint at the end, returns ConstraintAlreadyInSketch for a constraint that is already registered, and get_num_constraints counts the registered constraints; no constraint object is ever registered twice.", "quantifier": "all histories", "why_tests_cant": "Invariant over all histories.", "anchors": ["src/sketch/mod.rs: add_constraint, get_num_constraints, constraints", "src/constraints/mod.rs: PartialEq for ConstraintCell"]}
{"id": "C06", "title": "delete_constraint removes exactly the given constraint", "statement": "If c is registered, delete_constraint(c) returns Ok, c is no longer registered and every other constraint stays, in order; if c is not registered it returns ConstraintNotFound and changes nothing.", "quantifier": "all sketches and constraints", "why_tests_cant": "Universal over the constraint list; no test in the repository calls it.", "anchors": ["src/sketch/mod.rs: delete_constraint"]}
{"id": "C07", "title": "A rejected call changes nothing", "statement": "Whenever add_primitive, add_constraint, delete_primitive or delete_constraint returns an error, the sketch (ids, primitives, constraints, next id) and all primitive data are exactly as before. delete_primitive(id) succeeds iff id is registered and then removes exactly that entry.", "quantifier": "all sketches and arguments", "why_tests_cant": "Error atomicity is a universal claim over states and error paths.", "anchors": ["src/sketch/mod.rs: add_primitive, add_constraint, delete_primitive, delete_constraint"]}
{"id": "C08", "title": "Degrees of freedom and data layout", "statement": "get_n_dofs is 2*points + 3*arcs + 1*circles (lines contribute 0), get_data has that length and is the concatenation, in ascending id order, of the parameters [x,y] of points, [radius,start,end] of arcs and [radius] of circles.", "quantifier": "all sketches", "why_tests_cant": "Sizes are unbounded and mixtures arbitrary.", "anchors": ["src/sketch/mod.rs: get_n_dofs, get_data", "src/primitives/*.rs: get_data"]}
{"id": "C09", "title": "set_data / get_data round trip", "statement": "set_data(get_data()) leaves every primitive unchanged if all data are finite; after a non-panicking set_data(v), get_data() = v. set_data panics iff v has the wrong length or a non-finite entry; with a wrong length nothing at all has been written.", "quantifier": "all sketches in which no primitive is registered twice, all vectors, any arithmetic", "why_tests_cant": "Universal over sketch shapes and vectors.", "anchors": ["src/sketch/mod.rs: set_data, get_data", "src/primitives/*.rs: set_data"]}
{"id": "C10", "title": "set_data writes nothing but the parameters of registered primitives", "statement": "set_data never changes gradients, reference structure, constraint objects, the clockwise flag or any primitive that is not registered in this sketch; all users of a registered point (lines, arcs, constraints) see the new coordinates.", "quantifier": "all sketches and vectors", "why_tests_cant": "Frame property over all heaps and alias structures.", "anchors": ["src/sketch/mod.rs: set_data", "src/primitives/line.rs: Line", "src/primitives/arc.rs: start_point, end_point"]}
{"id": "C11", "title": "A cloned sketch is independent", "statement": "After let t = s.clone(), calling set_data on t does not change s.get_data().", "quantifier": "all sketches", "why_tests_cant": "Universal; depends on sharing.", "anchors": ["src/sketch/mod.rs: #[derive(Clone)] Sketch"]}
{"id": "C12", "title": "Every loss is non-negative", "statement": "loss_value of every constraint kind and get_loss are >= 0 in exact arithmetic, and in IEEE binary64 they are never negative (they may be NaN or +inf).", "quantifier": "all constraint kinds, all data, all libm implementations", "why_tests_cant": "Ranges over all float inputs.", "anchors": ["src/constraints/**: loss_value", "src/sketch/mod.rs: get_loss"]}
{"id": "C13", "title": "A constraint has zero loss exactly when it is geometrically satisfied", "statement": "In exact arithmetic loss_value = 0 iff the stated relation holds: point at the target, horizontal / vertical, signed x / y distance, Euclidean distance, arc endpoint on the point, equal lengths, parallel or perpendicular directions (also 0 if a line is degenerate), angle equal to the desired angle.", "quantifier": "all constraint kinds, all finite data", "why_tests_cant": "An equivalence over a continuum of configurations.", "anchors": ["src/constraints/**: loss_value"]}
{"id": "C14", "title": "The sketch loss is the sum of constraint losses and pinpoints conflicts", "statement": "get_loss is the sum of get_loss_per_constraint (entry i belongs to the i-th constraint); it is 0 iff every constraint is satisfied, and the constraints with positive entries are exactly the unsatisfied ones.", "quantifier": "all sketches, all finite data", "why_tests_cant": "Universal over sketches.", "anchors": ["src/sketch/mod.rs: get_loss, get_loss_per_constraint", "README.md: Conflict resolution"]}
{"id": "C15", "title": "get_gradient is the exact derivative of get_loss", "statement": "In exact arithmetic, for every sketch (with arbitrary sharing of points between lines, arcs and constraints), whenever no constraint is in a degenerate configuration, get_gradient returns g such that for every direction d the derivative at t=0 of get_loss after set_data(x + t d) is g.d.", "quantifier": "all sketches, all finite data outside the degenerate set, all directions", "why_tests_cant": "README relies on finite differences at a handful of points; the claim is over a continuum and over all alias structures.", "anchors": ["src/sketch/mod.rs: get_gradient", "src/constraints/**: update_gradient", "src/primitives/*.rs: add_to_gradient"]}
{"id": "C16", "title": "Jacobian rows are the per-constraint gradients", "statement": "get_jacobian has one row per constraint in order and one column per degree of freedom; row i is the derivative of loss i, and the column sums equal get_gradient.", "quantifier": "all sketches, all data outside the degenerate set", "why_tests_cant": "Universal over sketches.", "anchors": ["src/sketch/mod.rs: get_jacobian, get_gradient"]}
{"id": "C17", "title": "Gradient evaluation is pure in the data", "statement": "get_gradient and get_jacobian return the same value whatever gradients were stored before (calling them twice gives the same answer), and neither they nor get_loss change any data, structure or constraint.", "quantifier": "all sketches, all previous cached gradients, any arithmetic (hence IEEE)", "why_tests_cant": "Stale accumulator bugs depend on call history.", "anchors": ["src/sketch/mod.rs: get_gradient, get_jacobian, get_loss", "src/primitives/*.rs: zero_gradient"]}
{"id": "C18", "title": "Gradient evaluation does not panic on finite data", "statement": "If all data are finite, get_gradient returns normally for every sketch, including degenerate configurations (coincident points, zero-length lines).", "quantifier": "all sketches and finite data, exact arithmetic", "why_tests_cant": "Degenerate configurations form a thin set that sampling misses.", "anchors": ["src/sketch/mod.rs: get_gradient", "src/constraints/lines/equal_length.rs: update_gradient", "src/primitives/point2.rs: add_to_gradient"]}
{"id": "C19", "title": "A vanishing gradient means the constraints are satisfied or in conflict, not skipped", "statement": "If the gradient of a single satisfiable constraint is zero then its loss is zero (the solver does not stop at an unsatisfied constraint).", "quantifier": "all constraint kinds, all finite data", "why_tests_cant": "Universal over configurations.", "anchors": ["src/constraints/distance/euclidian_distance_between_points.rs: update_gradient", "src/constraints/angle_between_points.rs: update_gradient"]}
{"id": "C20", "title": "Losses respect rigid motions", "statement": "Distance, equal-length, parallel, perpendicular and angle losses are unchanged by translating and rotating all points; horizontal/vertical line and distance losses are unchanged by translation.", "quantifier": "all data, all translations and rotation angles, exact arithmetic", "why_tests_cant": "Continuum of motions.", "anchors": ["src/constraints/**: loss_value"]}
{"id": "C21", "title": "Every solver terminates within its iteration budget", "statement": "GradientBased, GaussNewton and LevenbergMarquardt perform at most max_iterations steps; BFGS performs at most max_iterations accepted steps and at most 2*max_iterations+1 passes of its main loop, for any arithmetic (NaN included); each line search evaluates at most 15 trial points.", "quantifier": "all sketches, all parameters, any arithmetic", "why_tests_cant": "Termination is a universal claim; BFGS has a loop path that does not increment the counter.", "anchors": ["src/solvers/*.rs: solve", "src/solvers/line_search.rs: line_search_wolfe"]}
{"id": "C22", "title": "Ok from BFGS or gradient descent means a stopping criterion holds at the returned state", "statement": "If solve returns Ok, then at the returned state loss < min_loss, or the gradient norm (max norm for BFGS, Euclidean for GradientBased) is below the threshold, or max_iterations accepted steps were made.", "quantifier": "all sketches and parameters, any arithmetic", "why_tests_cant": "Universal over runs.", "anchors": ["src/solvers/bfgs_solver.rs: solve", "src/solvers/gradient_based_solver.rs: solve"]}
{"id": "C23", "title": "Ok from Gauss-Newton / Levenberg-Marquardt before the budget means small loss", "statement": "If solve returns Ok after fewer than max_iterations iterations, the loss of the returned sketch is <= min_loss.", "quantifier": "all sketches and parameters", "why_tests_cant": "Universal over runs.", "anchors": ["src/solvers/gauss_newton_solver.rs: solve", "src/solvers/levenberg_marquardt.rs: solve"]}
{"id": "C24", "title": "A successful line search satisfies the Wolfe conditions", "statement": "If the line search returns Ok(alpha) then alpha > 0, the sketch data are exactly x0 + alpha*d, the loss there is <= loss0 + 1e-4*alpha*(g.d) and the directional derivative there is >= 0.9*(g.d); alpha is a product of at most 14 factors 1.5 and 0.5. A non-descent direction is rejected without moving the sketch.", "quantifier": "all sketches, directions and gradients", "why_tests_cant": "Universal over directions and losses.", "anchors": ["src/solvers/line_search.rs: line_search_wolfe"]}
{"id": "C25", "title": "Gradient descent never increases the loss", "statement": "If GradientBasedSolver::solve returns Ok then the final loss is <= the initial loss: in exact arithmetic, strictly smaller unless no step was made, and in binary64 for the losses as get_loss computes them.", "quantifier": "all sketches and parameters", "why_tests_cant": "Universal over runs.", "anchors": ["src/solvers/gradient_based_solver.rs: solve", "src/solvers/line_search.rs"]}
{"id": "C26", "title": "A failed solve leaves the sketch where it was", "statement": "If the line search (hence GradientBasedSolver::solve or BFGSSolver::solve) returns an error, the sketch data are those of the last accepted iterate.", "quantifier": "all sketches", "why_tests_cant": "Error-path atomicity over all runs.", "anchors": ["src/solvers/line_search.rs: line_search_wolfe", "src/solvers/gradient_based_solver.rs", "src/solvers/bfgs_solver.rs"]}
{"id": "C27", "title": "BFGS never increases the loss", "statement": "If BFGSSolver::solve returns Ok then the final loss is <= the initial loss.", "quantifier": "all sketches and parameters", "why_tests_cant": "Depends on rare line-search failure paths.", "anchors": ["src/solvers/bfgs_solver.rs: solve"]}
{"id": "C28", "title": "BFGS keeps a symmetric positive definite inverse Hessian and descends", "statement": "In exact arithmetic, as long as no line search failed, the inverse-Hessian approximation stays symmetric positive definite (and satisfies the secant equation H y = s whenever |s.y| >= 1e-16), so the search direction is a descent direction and NotDescentDirection is never returned.", "quantifier": "all sketches, parameters and dimensions", "why_tests_cant": "Inductive invariant over runs in arbitrary dimension.", "anchors": ["src/solvers/bfgs_solver.rs: solve"]}
{"id": "C29", "title": "Solvers move only parameters of registered primitives", "statement": "No solver changes the set of primitives or constraints, ids, the reference structure, constraint parameters, or the data of any primitive that is not registered; this also holds when solve returns an error or panics.", "quantifier": "all solvers, sketches, parameters, any arithmetic, any pseudo-inverse", "why_tests_cant": "Frame property over all runs.", "anchors": ["src/solvers/*.rs: solve"]}
{"id": "C30", "title": "A solved sketch stays put", "statement": "If the loss is already below min_loss (or the gradient is below the threshold) BFGS and GradientBased return Ok without changing any data; GaussNewton and LevenbergMarquardt do not move a sketch whose constraints are all exactly satisfied.", "quantifier": "all sketches and parameters", "why_tests_cant": "Universal over sketches.", "anchors": ["src/solvers/*.rs: solve"]}
{"id": "C31", "title": "Unconstrained primitives do not move", "statement": "In exact arithmetic, a primitive whose parameters no constraint depends on keeps its data exactly under every solver (Gauss-Newton and Levenberg-Marquardt: for every exact pseudo-inverse). In binary64 GradientBasedSolver keeps its bits and BFGSSolver its values: BFGS may turn -0 into 0 and nothing else.", "quantifier": "all sketches, runs and outcomes, all libm functions", "why_tests_cant": "Universal over runs.", "anchors": ["src/solvers/*.rs", "src/sketch/mod.rs: get_gradient"]}
{"id": "C32", "title": "Solvers keep data finite", "statement": "If all registered data are finite before solve, they are finite after it, whether it returns Ok, an error, or panics.", "quantifier": "all solvers, sketches, any arithmetic", "why_tests_cant": "Universal over runs including failures.", "anchors": ["src/primitives/*.rs: set_data", "src/solvers/*.rs"]}
{"id": "C33", "title": "The solver reports non-finite gradients as an error", "statement": "BFGSSolver::solve returns the error 'gradient contains non-finite values' when the gradient contains NaN or infinity.", "quantifier": "all sketches", "why_tests_cant": "Universal; the path may be dead code.", "anchors": ["src/solvers/bfgs_solver.rs: solve", "src/sketch/mod.rs: get_gradient"]}
{"id": "C34", "title": "Fixing points is solved exactly in one step", "statement": "In exact arithmetic a sketch of points, each with one FixPoint constraint, is solved by GradientBasedSolver and BFGSSolver with one accepted step, ending exactly at the targets.", "quantifier": "all numbers of points, positions and targets", "why_tests_cant": "Unbounded number of points and continuum of positions.", "anchors": ["src/constraints/fix_point.rs", "src/solvers/gradient_based_solver.rs", "src/solvers/bfgs_solver.rs"]}
{"id": "C35", "title": "Rings are closed chains", "statement": "Every segment ring returned by find_rings is non-empty, each segment starts exactly where its predecessor ends and the last ends where the first starts; every segment of a ring is a line or arc of the sketch or its reversal.", "quantifier": "all sketches, any arithmetic", "why_tests_cant": "Universal over planar graphs.", "anchors": ["src/decompose/mod.rs: find_rings, find_next_segment", "src/decompose/segment.rs: continues, reverse"]}
{"id": "C36", "title": "No directed segment is used twice", "statement": "Over all rings found in one call, each direction of each line or arc is used at most once (neither twice in a ring nor in two rings).", "quantifier": "all sketches, any arithmetic", "why_tests_cant": "Universal over graphs; the walk does not mark its own path as used.", "anchors": ["src/decompose/mod.rs: find_rings, find_next_segment"]}
{"id": "C37", "title": "Rings are sorted by area and positive; circles are rings", "statement": "The rings returned are exactly the closed walks and the circles with positive signed area, in ascending order of area; a circle appears iff its radius is non-zero.", "quantifier": "all sketches", "why_tests_cant": "Universal over sketches.", "anchors": ["src/decompose/mod.rs: find_rings", "src/decompose/ring.rs: signed_area"]}
{"id": "C38", "title": "Unused segments are those on no closed walk", "statement": "The second component of find_rings is, in id order, exactly the lines and arcs whose forward direction is on none of the closed walks.", "quantifier": "all sketches", "why_tests_cant": "Universal over sketches.", "anchors": ["src/decompose/mod.rs: find_rings, find_faces"]}
{"id": "C39", "title": "Face construction cannot index out of bounds and keeps one face per ring", "statement": "get_faces never panics on an index, returns exactly one face per ring in the same order, with that ring as exterior (answering the TODO 'Can this lookup fail?').", "quantifier": "all sketches, any containment test", "why_tests_cant": "Universal over sketches.", "anchors": ["src/decompose/mod.rs: find_faces, decompose_sketch", "src/sketch/mod.rs: get_faces"]}
{"id": "C40", "title": "Holes are attached to the face that contains them", "statement": "Whenever a face in get_faces has a hole, the hole's exterior lies inside that face's exterior; in particular no face is its own hole.", "quantifier": "all sketches", "why_tests_cant": "No test covers nested rings.", "anchors": ["src/decompose/mod.rs: find_faces"]}
{"id": "C41", "title": "get_merged_faces merges faces", "statement": "merge_faces combines adjacent faces of the decomposition.", "quantifier": "all face lists, any geometric predicates", "why_tests_cant": "Depends on external geometry predicates.", "anchors": ["src/decompose/mod.rs: merge_faces", "src/sketch/mod.rs: get_merged_faces"]}
{"id": "C42", "title": "Reversal is an involution that flips orientation", "statement": "Reversing a segment swaps its end points (for arcs also the direction flag) and reversing twice gives back the same geometry; reversing a ring negates its signed area.", "quantifier": "all segments and rings", "why_tests_cant": "Universal over geometry.", "anchors": ["src/decompose/segment.rs: reverse", "src/primitives/arc.rs: reverse", "src/decompose/ring.rs: signed_area"]}
{"id": "C43", "title": "Face finding depends only on geometry", "statement": "The result of find_rings depends only on the data and structure of the primitives, not on cached gradients from earlier get_gradient/solve calls.", "quantifier": "all sketches and cached gradients", "why_tests_cant": "History dependent.", "anchors": ["src/decompose/mod.rs: find_rings", "src/decompose/segment.rs: equals_or_reverse_equals", "src/primitives/arc.rs: PartialEq, reverse"]}
{"id": "C44", "title": "angle_difference is the counter-clockwise turn", "statement": "For angles in [-2pi, 4pi], angle_difference(a0, a1) lies in [0, 2pi] and is congruent to a1 - a0 modulo 2pi.", "quantifier": "all real angles in the range", "why_tests_cant": "Continuum.", "anchors": ["src/decompose/mod.rs: angle_difference, find_next_segment"]}
{"id": "C45", "title": "A closed polygon is found even if other segments dangle from it", "statement": "If some lines of the sketch form a simple closed polygon then find_rings returns a ring for it, even when further lines dangle from its corners.", "quantifier": "all sketches", "why_tests_cant": "Universal over graphs.", "anchors": ["src/decompose/mod.rs: find_rings, find_next_segment"]}
{"id": "C46", "title": "A region bounded by arcs is found", "statement": "A closed curve made of two arcs enclosing a region of positive area yields a face.", "quantifier": "all pairs of arcs", "why_tests_cant": "Universal.", "anchors": ["src/decompose/ring.rs: signed_area", "src/decompose/mod.rs: find_rings"]}
{"id": "C47", "title": "Serialisation round trip preserves the values", "statement": "Deserialising a serialised sketch gives a sketch with the same ids, data vector, loss per constraint, and counts.", "quantifier": "all sketches", "why_tests_cant": "Universal over sketches.", "anchors": ["src/sketch/mod.rs: #[derive(Serialize, Deserialize)]", "Cargo.toml: serde feature rc"]}
{"id": "C48", "title": "Serialisation round trip preserves behaviour", "statement": "A deserialised sketch has the same gradient as the original and can still be solved (shared points stay shared).", "quantifier": "all sketches", "why_tests_cant": "Depends on sharing.", "anchors": ["src/sketch/mod.rs: #[derive(Serialize, Deserialize)]", "Cargo.toml: serde feature rc"]}
{"id": "C49", "title": "Constructors and setters keep data finite", "statement": "All data reachable through the public API are finite numbers.", "quantifier": "all histories", "why_tests_cant": "Universal over histories.", "anchors": ["src/primitives/point2.rs: new, set_x", "src/primitives/arc.rs: new, set_radius", "src/constraints/fix_point.rs: set_desired_pos"]}
{"id": "C50", "title": "IEEE evaluation of losses, gradient and Jacobian cannot panic for moderate data", "statement": "In IEEE binary64, if every coordinate and parameter read is at most 2^100 in magnitude, and the lines of equal-length, parallel and perpendicular constraints have ends at least 1e-6 apart, then get_gradient and get_jacobian do not panic and they, get_loss and get_loss_per_constraint return finite numbers only. The libm functions are assumed to stay within [-1,1] (sin, cos) and [-4,4] (acos on [-1,1]).", "quantifier": "all binary64 data within the bound, all sketches with any number of constraints of the twelve kinds", "why_tests_cant": "2^64 values per coordinate, unboundedly many constraints (accumulated rounding and overflow).", "anchors": ["src/constraints/**: loss_value, update_gradient", "src/sketch/mod.rs: get_gradient, get_jacobian, get_loss"]}
{"id": "C51", "title": "At a corner the walk turns as far left as possible", "statement": "find_next_segment returns, among the unused directed segments that start where the current one ends (other than it and its reversal), the one with the largest counter-clockwise angle from the way back; for lines that angle is the geometric one.", "quantifier": "all sketches, current segments and used sets", "why_tests_cant": "Universal over configurations around a corner.", "anchors": ["src/decompose/mod.rs: find_next_segment", "src/decompose/segment.rs: start_angle, end_angle"]}
{"id": "C52", "title": "Polygons handed to the geometry library are those of the rings", "statement": "as_polygon of a ring found is the closed polygon through its corners; of a circle it is the regular 36-gon on the circle; of a face it is its exterior with the exteriors of its holes as interiors.", "quantifier": "all sketches with finite data", "why_tests_cant": "Universal.", "anchors": ["src/decompose/ring.rs: as_polygon", "src/decompose/face.rs: as_polygon"]}
{"id": "C53", "title": "adjacent_edges lists exactly the shared edges", "statement": "adjacent_edges returns, in order, exactly the index pairs of segments of the two rings that are reversals of each other, and None if there are none or a ring is a circle.", "quantifier": "all pairs of rings", "why_tests_cant": "Universal.", "anchors": ["src/decompose/ring.rs: adjacent_edges"]}
{"id": "C54", "title": "Arcs leave and reach their ends in the direction of travel", "statement": "start_angle and end_angle of an arc, which decide the turns at corners, are its directions of travel at the two ends.", "quantifier": "all arcs with positive radius", "why_tests_cant": "Universal over angles.", "anchors": ["src/decompose/segment.rs: start_angle, end_angle"]}
{"id": "C55", "title": "Ok with the default parameters means the documented thresholds", "statement": "When solve returns Ok with the default parameters: gradient descent ended with loss < 1e-14, gradient norm < 1e-10 or after 10000 iterations; BFGS with loss < 1e-16, largest gradient entry < 1e-8 or after 1000 iterations; Gauss-Newton and Levenberg-Marquardt made steps of size 1e-3 (0.1) with pseudo-inverse tolerance 1e-6 (and damping 1e-5) until the loss before the last one was at most 1e-6 (1e-10) or 10000 (1000) were made.", "quantifier": "all sketches, data and pseudo-inverse results", "why_tests_cant": "Universal over runs of up to 10000 iterations.", "anchors": ["src/solvers/gradient_based_solver.rs: new", "src/solvers/bfgs_solver.rs: new", "src/solvers/gauss_newton_solver.rs: new, new_with_params", "src/solvers/levenberg_marquardt.rs: new, new_with_params"]}
{"id": "C56", "title": "Joining and equality of segments and rings", "statement": "connects holds exactly if the segment or its reversal continues the prior one; == on segments and rings is a symmetric and transitive relation that holds exactly if the geometry is the same.", "quantifier": "all pairs of segments and rings", "why_tests_cant": "Universal.", "anchors": ["src/decompose/segment.rs: connects, continues", "src/decompose/ring.rs: PartialEq"]}
{"id": "C57", "title": "The gradient checker accepts exactly within the tolerance and restores the data", "statement": "check_gradients leaves all parameters unchanged, panicking or not, and returns normally exactly if for every primitive the gradient is within the tolerance of the difference quotients of the constraint's loss.", "quantifier": "all valid sketches with finite data, all step sizes and tolerances", "why_tests_cant": "Universal; restoring after each single perturbation on every path.", "anchors": ["src/sketch/mod.rs: check_gradients"]}
{"id": "C58", "title": "Setters change exactly one field of one primitive", "statement": "Every setter of a point, line, arc or circle changes the named field and nothing else: no other field, no cached gradient, no other cell. set_x and set_y panic on a number that is not finite and then change nothing.", "quantifier": "all heaps, cells and values", "why_tests_cant": "Universal (frame condition over all other cells).", "anchors": ["src/primitives/point2.rs: set_x, set_y", "src/primitives/line.rs: set_start, set_end", "src/primitives/arc.rs: set_center, set_radius, set_start_angle, set_end_angle", "src/primitives/circle.rs: set_center, set_radius"]}
{"id": "C59", "title": "Changing the target of a constraint changes nothing else", "statement": "set_desired_angle, set_desired_distance and set_desired_pos keep kind and references of the constraint, store the new numbers, and leave all other constraints, all primitives and the sketch as they were.", "quantifier": "all constraints and values", "why_tests_cant": "Universal (frame condition).", "anchors": ["src/constraints/angle_between_points.rs: set_desired_angle", "src/constraints/fix_point.rs: set_desired_pos", "src/constraints/distance/**: set_desired_distance"]}
{"id": "C60", "title": "The constrain_* helpers register exactly the constraint asked for", "statement": "Each of the five helpers, given registered primitives and finite numbers, appends one new constraint of its kind with the given references in the given order and target, returns its handle and changes nothing else. With an unregistered primitive it returns an error and the sketch is unchanged; with a number that is not finite it panics and nothing is changed.", "quantifier": "all valid sketches", "why_tests_cant": "Universal.", "anchors": ["src/sketch/mod.rs: constrain_perpendicular_lines, constrain_parallel_lines, constrain_distance_euclidean, constrain_fix_point, constrain_angle_between_points"]}
{"id": "C61", "title": "add_to_gradient accumulates and passes on to the points", "statement": "add_to_gradient adds its entries to the cached gradient; a line passes its entries to its two points, arcs and circles pass the first two to their center; parameters never change; if an entry is not finite it panics and nothing is changed.", "quantifier": "all heaps, cells and vectors, including a line whose two points coincide", "why_tests_cant": "Universal (frame condition, aliasing).", "anchors": ["src/primitives/point2.rs: add_to_gradient", "src/primitives/line.rs: add_to_gradient", "src/primitives/arc.rs: add_to_gradient", "src/primitives/circle.rs: add_to_gradient"]}
{"id": "C62", "title": "A group of points that nothing ties down keeps its centre", "statement": "In exact arithmetic, take registered points such that every constraint either depends on none of them or is of a kind that is invariant under translation (any kind but FixPoint) and depends on no other points. Then solve, with any of the four solvers, any parameters and any outcome, leaves the sum of their x and the sum of their y coordinates unchanged. (For Gauss-Newton and Levenberg-Marquardt: if the pseudo-inverse is the one of exact arithmetic with small singular values dropped, and step size and damping are finite.)", "quantifier": "all sketches, groups, solvers, parameters, runs and outcomes", "why_tests_cant": "Conservation law over whole runs of arbitrary length; a test sees a few runs with rounding errors.", "anchors": ["src/solvers/*.rs: solve", "src/sketch/mod.rs: get_gradient, get_jacobian", "src/constraints/**: update_gradient"]}
{"id": "C63", "title": "Gauss-Newton and Levenberg-Marquardt step in a descent direction", "statement": "In exact arithmetic and away from degenerate geometry, one iteration of Gauss-Newton, or of Levenberg-Marquardt with non-negative damping, adds step_size times a direction d to the data; the derivative of half the sum of squared losses along d is not positive and vanishes only if d = 0. So every small enough positive step size strictly decreases the sum of squares or leaves the data unchanged.", "quantifier": "all sketches with non-degenerate constraints, dampings, tolerances and step sizes", "why_tests_cant": "Universal; limits cannot be tested.", "anchors": ["src/solvers/gauss_newton_solver.rs: solve", "src/solvers/levenberg_marquardt.rs: solve"]}
{"id": "C64", "title": "No call fails with a RefCell borrow error, however cells are shared", "statement": "A caller that holds no borrow() or borrow_mut() guard never sees an 'already borrowed' panic from any method of Sketch, from solve, check_gradients, the decomposition or serialisation, even if a line starts and ends in the same point or a constraint names one primitive twice. Shared guards of the caller do not disturb calls that only read; guards on cells outside the sketch do not disturb any method; a guard on a registered cell does: get_gradient and set_data panic. Every cell whose contents a call changes is under an exclusive guard of that call.", "quantifier": "all heaps with any aliasing, all sketches, all sequences of calls, all sets of guards held", "why_tests_cant": "Depends on the aliasing pattern; the combinations are unbounded.", "anchors": ["src/sketch/mod.rs", "src/constraints/**: loss_value, update_gradient", "src/primitives/*.rs: add_to_gradient, set_data", "src/decompose/*.rs"]}
{"id": "C65", "title": "Gradient descent gets near a stationary point at a known rate", "statement": "In exact arithmetic, on a sketch whose numbers are finite, every accepted step of the gradient-based solver lowers the loss by at least |gradient|^2 / 163840000. So a run that starts at loss l with gradient tolerance e makes at most 163840000 l / e^2 steps, and if max_iterations is larger than that, an Ok result means that a tolerance was met and not that the budget ran out. In a sequence of steps that never ends the losses converge, the gradients tend to zero, and one of the first n gradients has a square of at most 163840000 l / n.", "quantifier": "all sketches, parameters and runs, and all infinite sequences of steps", "why_tests_cant": "Rates and limits over runs of unbounded length.", "anchors": ["src/solvers/gradient_based_solver.rs: solve", "src/solvers/line_search.rs: line_search_wolfe"]}
{"id": "C66", "title": "The order in which constraints and primitives are entered does not matter", "statement": "In exact arithmetic, two sketches that consist of the same primitives with the same numbers and of the same constraints get the same result from every solver, error or not, and end with the same data, whatever the ids, the addresses and the order in which primitives and constraints were entered. In particular the constraints of a list may be added in any order. (For Gauss-Newton and Levenberg-Marquardt: if the pseudo-inverse is independent of the choice of coordinates.) Binary64 rounding breaks this: there the order can change the result.", "quantifier": "all sketches, renamings, permutations, solvers, parameters and outcomes", "why_tests_cant": "Universal over runs of any length and all orders; rounding hides the law in tests.", "anchors": ["src/sketch/mod.rs: get_loss, get_gradient, get_jacobian, get_data, set_data, constrain", "src/solvers/*.rs: solve"]}
{"id": "C67", "title": "Solving commutes with rotations and translations of the plane", "statement": "In exact arithmetic, if the second sketch is the first one rotated and translated (targets of FixPoint included), every solver returns the same result on both, error or not, and afterwards the second sketch is still the first one rotated and translated. With horizontal or vertical constraints this holds for translations; BFGS, whose stopping test looks at the largest gradient entry, for quarter turns and translations.", "quantifier": "all sketches, motions, renamings, orders of entry, solvers, parameters and outcomes", "why_tests_cant": "Universal over a continuous group of motions and runs of any length.", "anchors": ["src/constraints/**: loss_value, update_gradient", "src/solvers/*.rs: solve", "src/solvers/line_search.rs: line_search_wolfe"]}
{"id": "C68", "title": "The rings found in binary64 are those of the real geometry unless corners are too sharp", "statement": "Read a binary64 sketch of lines and circles as real numbers. If any two lines leaving a point differ in direction by more than 2^-46 (about 1.4e-14), and no closed walk of n lines encloses an area below (n+4)^2 M^2 / 2^52, where M bounds the coordinates, then get_rings in binary64 finds exactly the rings that exact real arithmetic finds (possibly in another order) and leaves the same lines unused. On the way: % is exact, and a computed turn angle is off by at most 15 * 2^-52 up to whole turns. Assumed of the platform: atan2 is accurate to 2^-50.", "quantifier": "all binary64 sketches of lines and circles with coordinates up to 2^400, and every libm with an accurate atan2", "why_tests_cant": "A statement about rounding for all coordinates; a test sees only the shapes it tries.", "anchors": ["src/decompose/mod.rs: find_rings, find_next_segment, angle_difference", "src/decompose/ring.rs: signed_area", "src/decompose/segment.rs: start_angle, end_angle"]}
{"id": "C69", "title": "A linear sketch has no false minima", "statement": "In exact arithmetic, if every constraint is FixPoint, HorizontalDistance, VerticalDistance, HorizontalLine or VerticalLine, get_loss along any line in parameter space is a parabola open upwards whose slope is that of get_gradient. Where get_gradient returns zero, no placement of the primitives has a smaller loss, and if the constraints can be satisfied at all they are satisfied there. In a solvable linear sketch the loss is half the scalar product of the gradient with the way from any solution to the current placement.", "quantifier": "all sketches of linear constraints, all placements and directions", "why_tests_cant": "A statement about all placements; a test cannot exclude other minima.", "anchors": ["src/constraints/fix_point.rs", "src/constraints/distance/{horizontal,vertical}_distance_between_points.rs", "src/constraints/lines/{horizontal,vertical}_line.rs", "src/sketch/mod.rs: get_loss, get_gradient"]}
{"id": "C70", "title": "The line-search solvers solve every solvable linear sketch", "statement": "With default parameters, the gradient-based solver and BFGS return Ok on every sketch of linear constraints that can be satisfied. (False: on a chain of 90 points with horizontal distances both give up, because the search can lengthen a step only 14 times by half. What holds in exact arithmetic: the search succeeds exactly if the curvature is in a known range; accepted steps of gradient descent never get farther from any solution; and Ok before the budget runs out means that the loss is below min_loss or below half of min_grad times the distance of the start from any solution.)", "quantifier": "all solvable sketches of linear constraints, all starting placements and runs", "why_tests_cant": "Failing sketches are rare and large; the distance law quantifies over all solutions.", "anchors": ["src/solvers/line_search.rs: line_search_wolfe", "src/solvers/gradient_based_solver.rs: solve", "src/solvers/bfgs_solver.rs: solve"]}
{"id": "C71", "title": "The staircase benchmark: what it builds, what its check means, and when a successful solver passes it", "statement": "For every n >= 1, the benchmark builds, without an error, n points and n-1 lines with 2n-1 constraints, in any arithmetic. In exact arithmetic the loss is zero exactly if every point is at its corner of the staircase; the squared error of point i is at most 2(i+1) times the loss; and check(eps) returns Ok if 2(n-1) times the loss is at most eps^2. A gradient-based solver that returns Ok before its budget is spent passes check(1e-6) for n <= 51, BFGS for n <= 13. (The converse directions are false: from n = 52 and n = 14 on there are placements where the solvers return Ok and the check fails, and the check passes however large the loss, because it does not look at the last point.)", "quantifier": "all n, all placements of the points, all runs of the two solvers", "why_tests_cant": "The benchmark runs one start for seven sizes; the limits 51 and 13 are statements about all placements.", "anchors": ["benches/solvers/stairs_with_lines_benchmark.rs", "src/solvers/gradient_based_solver.rs: solve", "src/solvers/bfgs_solver.rs: solve"]}
{"id": "C72", "title": "The circle benchmark: what it builds and what its check means", "statement": "For every n >= 1, the benchmark builds its sketch without an error if its reference values are finite (over the reals they are). In exact arithmetic its constraints are consistent: the loss is zero exactly if every point is at its reference position. The squared error of every point is at most twice the loss, whatever n; with a loss below the tolerance 1e-14 of the gradient-based solver, check(1e-6) returns Ok.", "quantifier": "all n, all placements of the points", "why_tests_cant": "Consistency of the angle and distance targets with the fixed points for all n; error bounds for all placements.", "anchors": ["benches/solvers/circle_with_lines_benchmark.rs"]}
{"id": "C73", "title": "The axis-aligned rectangle test", "statement": "The test builds its sketch without an error. In exact arithmetic the loss is zero exactly if a, b, c, d are (0,0), (2,0), (2,3), (0,3); the squared errors are at most 2, 4, 6 and 4 times the loss; so the assertions hold if the loss is below 1e-16 / 6. (False: that BFGS returning Ok implies the assertions; its tolerance on the loss is 1e-16.) In binary64 the test passes, whatever the mathematical library and the pseudo-inverse.", "quantifier": "all placements of the four points; all libm implementations", "why_tests_cant": "The test runs once on one machine; the bounds hold for all placements, and the run is shown independent of libm.", "anchors": ["src/examples/test_rectangle_axis_aligned.rs", "src/solvers/bfgs_solver.rs: solve"]}
{"id": "C74", "title": "The rotated rectangle test accepts every solution of its constraints", "statement": "Whenever the loss of the sketch of the rotated-rectangle test is zero, its check returns Ok. (False: the constraints have eight solutions, four rectangles and four figures in which c and d coincide, at b plus or minus sqrt 5 times the unit normal of ab. The check accepts the rectangles at any tolerance and rejects the others at any tolerance up to 1/2.)", "quantifier": "all placements of the five points, all tolerances", "why_tests_cant": "All solutions of a nonlinear system; the solver run in the test finds one of them.", "anchors": ["src/examples/test_rectangle_rotated.rs", "src/constraints/lines/perpendicular_lines.rs: loss_value"]}
{"id": "C75", "title": "Copies of primitives and constraints", "statement": "to_primitive returns a copy with the parameters, the cached gradient and the references of the primitive. Over any later history of calls the copy refers to the same points as the primitive unless the primitive is made to refer to another point, and a copy of a line remains one. A copy of a constraint (get_type) keeps standing for the constraint: its references, its loss and the effect of update_gradient are those of the constraint in every later state, unless a setter of that constraint is called. (False: that the copy of a circle, arc or point follows the parameters of the sketch.)", "quantifier": "all states, all later histories of calls, any arithmetic", "why_tests_cant": "The statement compares two objects after arbitrary histories of calls.", "anchors": ["src/primitives/mod.rs: Primitive, as_primitive_like", "src/primitives/*.rs: to_primitive", "src/constraints/mod.rs: Constraint, as_constraint_like", "src/constraints/**: get_type"]}
{"id": "C76", "title": "Comparison of primitives and constraints", "statement": "On the enums Primitive and Constraint, in any state of the cells, == is symmetric and transitive, partial_cmp returns Equal exactly if ==, a < b exactly if b > a, < is transitive, and equal values compare alike; in exact arithmetic and in binary64. A primitive is equal to itself exactly if no NaN is among the parameters and cached gradients of itself and of its points. In exact arithmetic, equal constraints have the same loss, and a point is less than one at another position exactly if neither coordinate is greater. (False: that == tells two cells apart as the comparison of PrimitiveCell does, and that it is reflexive in every reachable state.)", "quantifier": "all states of the cells, all values", "why_tests_cant": "The laws quantify over all values including NaN and signed zeros; the derived order mixes the product order of nalgebra vectors with the lexicographic order of fields.", "anchors": ["src/primitives/*.rs: derive(PartialEq, PartialOrd)", "src/primitives/mod.rs: Primitive", "src/constraints/**: derive(PartialEq, PartialOrd)", "src/constraints/mod.rs: Constraint"]}
{"id": "C77", "title": "The gradient matrices of arcs and circles", "statement": "In exact arithmetic, center_gradient, radius_gradient, start_angle_gradient and end_angle_gradient of an arc, and center_gradient and radius_gradient of a circle, are the Jacobians of these quantities with respect to the coordinates of the centre followed by the own parameters; a derivative times the matrix is the row for add_to_gradient that adds it to the gradient of that quantity and zero to all others.", "quantifier": "all finite parameters and derivatives", "why_tests_cant": "Nothing in the crate or its tests calls these functions; they serve constraints defined outside.", "anchors": ["src/primitives/arc.rs: center_gradient, radius_gradient, start_angle_gradient, end_angle_gradient", "src/primitives/circle.rs: center_gradient, radius_gradient"]}
{"id": "C78", "title": "Gradient descent solves small linear sketches, at a geometric rate", "statement": "In exact arithmetic, on a sketch of linear constraints with at most 54 points and 16382 constraints, the gradient-based solver with any parameters (min_grad positive) returns Ok, whether or not the constraints can be satisfied. If they can, with N points and K constraints, any N and K, n accepted steps bring the loss down to at most (1 - 1/(5001 K N^2))^n times the initial one, and the loss is at most N^2/2 times the squared norm of the gradient. So on a solvable sketch of at most 54 points a budget of 5001 K N^2 ln(loss / min_loss) iterations ends with a loss of at most min_loss or N^2/2 min_grad^2.", "quantifier": "all sketches of linear constraints within the size limits, all placements, all parameters", "why_tests_cant": "All graphs of constraints and all placements; the rate is a worst-case bound. The bound 54 cannot be replaced by 90 (C70).", "anchors": ["src/solvers/gradient_based_solver.rs: solve", "src/solvers/line_search.rs: line_search_wolfe", "src/constraints/**: loss_value, update_gradient"]}
{"id": "C79", "title": "Gauss-Newton and Levenberg-Marquardt cannot outrun their step size on linear sketches", "statement": "In exact arithmetic with an exact pseudo-inverse, on any sketch of linear constraints, one iteration of the Gauss-Newton or Levenberg-Marquardt solver with step size st in [0, 2] leaves at least (1 - st/2)^4 of the sum of squared constraint losses, and this factor is attained. Unless the pseudo-inverse fails both solvers return Ok. So Gauss-Newton with its default parameters (step 1e-3, 10000 iterations) divides the loss of a sketch with m constraints by at most 30000 sqrt m: whenever the loss starts above 0.03 sqrt m it uses up its budget and returns Ok with a loss above its threshold 1e-6.", "quantifier": "all sketches of linear constraints, all placements, all parameters", "why_tests_cant": "A lower bound over all sketches and placements on what any number of iterations can achieve.", "anchors": ["src/solvers/gauss_newton_solver.rs: solve, new", "src/solvers/levenberg_marquardt.rs: solve"]}
{"id": "C80", "title": "The damping of Levenberg-Marquardt keeps it away from its own threshold on linear sketches", "statement": "In exact arithmetic with an exact pseudo-inverse, on a sketch of m linear constraints with positive loss, i iterations of Levenberg-Marquardt with damping b and step size st increase 1 / sqrt(sum of squared losses) by at most i 4 st sqrt m / (b (1 - st/2)^2). So with the default parameters a loss l at the start ends at l' with 1/l' <= sqrt m (1/l + 4.44e7), and with at most 10000 constraints and a loss of 1e-7 or more at the start the solver never reaches its threshold 1e-10: it runs through all 1000 iterations and returns Ok with a loss above the threshold.", "quantifier": "all sketches of linear constraints, all placements, all parameters", "why_tests_cant": "A lower bound over all sketches and placements; the tests do not look at the number of iterations used.", "anchors": ["src/solvers/levenberg_marquardt.rs: solve, new"]}
{"id": "C81", "title": "Why calls panic", "statement": "In every arithmetic, a call other than a solver run or check_gradients panics exactly if a number it checks is not finite, a vector it is given has the wrong length, or a gradient entry it computes is not finite. In exact arithmetic, after any history in which the numbers passed to the unchecking calls are finite, a call with finite numbers that panics leaves a state with its cause: a vector of the wrong length, an equal-length constraint acting on a line of length zero (get_gradient, get_jacobian, update_gradient and all four solvers), or, for Gauss-Newton and Levenberg-Marquardt, a sketch without parameters. Conversely these causes make the call panic, gradient descent included. So a sketch with a parameter and without equal-length constraints is solved without a panic by every solver.", "quantifier": "all histories of calls, all finite numbers, all solvers and solver parameters, every exact pseudo-inverse that panics on empty matrices only", "why_tests_cant": "The absence of panics is claimed for all reachable states and for every intermediate state of every solver run.", "anchors": ["src/sketch/mod.rs: set_data, get_gradient, get_jacobian", "src/primitives/*.rs: set_data, add_to_gradient", "src/solvers/*.rs: solve", "src/constraints/**: new, update_gradient"]}
{"id": "C82", "title": "Gauss-Newton does not move a sketch whose Jacobian is small", "statement": "If all singular values of the Jacobian are at most the square root of the tolerance of the pseudo-inverse, Gauss-Newton leaves all data unchanged; if the pseudo-inverse does not fail it returns Ok, after its whole iteration budget when the loss is above its threshold. In a linear sketch in which at most D constraints act on any point this happens as soon as every constraint has a loss of at most tolerance / (4 D), so with many constraints the total loss can be arbitrarily far above the threshold.", "quantifier": "all sketches without degenerate constraints, all parameters, all pseudo-inverses that cut exactly at the tolerance; all linear sketches of any size", "why_tests_cant": "The claim is about every sketch near a solution, of any size, and about a run of thousands of iterations.", "anchors": ["src/solvers/gauss_newton_solver.rs:41-63", "src/sketch/mod.rs: get_jacobian, set_data"]}
{"id": "C83", "title": "The exact course of Gauss-Newton on independent linear constraints", "statement": "In a sketch of horizontal and vertical distances and lines whose gradients are independent, every iteration of Gauss-Newton with step size st multiplies the deviation of every constraint from its target by exactly 1 - st/2, as long as the tolerance of the pseudo-inverse is below the smallest eigenvalue of the Gram matrix of the gradients. This determines the loss it returns and the number of iterations. With any step size between 0 and 2 it reaches its threshold if budget and tolerance allow; with the default parameters it does so when the initial loss is at most 0.02.", "quantifier": "all such sketches of any size, all step sizes, tolerances, thresholds and budgets", "why_tests_cant": "The formula is claimed for every iteration of every run.", "anchors": ["src/solvers/gauss_newton_solver.rs:20-63", "src/sketch/mod.rs: get_jacobian, set_data", "src/constraints/distance/horizontal_distance_between_points.rs", "src/constraints/lines/horizontal_line.rs"]}
{"id": "C84", "title": "What a loss computed in binary64 says about the geometry", "statement": "With coordinates, radii and parameters of absolute value at most M (2^-100 <= M <= 2^100), for every kind of constraint but the angle between points: the loss computed in binary64 is a finite number v with |sqrt(2 v) - d| <= M 2^-47, where d is how far the constraint is from holding in exact geometry (for parallel and perpendicular lines: the sine or cosine of the angle, an error of 2^-47, and lines of length 2^-100 or more). The total that get_loss computes is finite and every d is at most sqrt(2 get_loss) + M 2^-47, for any number of constraints; conversely n <= 2^50 constraints that hold up to D have a total of at most n (D + max(1, M) 2^-47)^2. So a run of gradient descent or BFGS that stopped because of its loss threshold m ends with d <= sqrt(2 m) + M 2^-47 for every constraint. Without the error term the claim is false both ways: a constraint that holds exactly can have a positive loss and one that does not hold a loss of zero.", "quantifier": "all sketches of any size, all finite coordinates and parameters of absolute value at most M, all libms whose sine and cosine are off by at most 2^-50", "why_tests_cant": "Rounding errors depend on every bit of the input; the bound is claimed for all of them.", "anchors": ["src/constraints/**: loss_value", "src/sketch/mod.rs: get_loss", "src/solvers/gradient_based_solver.rs: solve", "src/solvers/bfgs_solver.rs: solve"]}
{"id": "C85", "title": "Sketches entered constraint by constraint have no false minima", "statement": "A sketch is entered constraint by constraint if its constraints can be put in an order in which each one acts on a point (or on a coordinate of a point) that no earlier one acts on. In such a sketch, away from degenerate constraints, the gradient is zero exactly when every constraint holds or is a parallel constraint on perpendicular lines (or vice versa), for all twelve kinds. If the m constraints are distances, lines on an axis, fixed points and arc end points, moreover 2 loss <= m^2 |gradient|^2, every accepted step of gradient descent multiplies the loss by at most 1 - 1/(81920000 m^2) provided each requested distance exceeds the square root of twice the initial loss by at least the guard under which the code drops a gradient (1e-6), and Ok from gradient descent means a loss below min_loss or at most m^2 min_gradient^2 / 2, or the exhausted budget. With a cycle of constraints this is false: three collinear points that are to be at distance 3 from each other can have gradient zero.", "quantifier": "all such sketches of any size, all coordinates, all solver parameters, all executions", "why_tests_cant": "Absence of spurious equilibria is a statement about all configurations of all such sketches; the rate about all runs.", "anchors": ["src/constraints/**: loss_value, gradient", "src/sketch/mod.rs: get_gradient", "src/solvers/gradient_based_solver.rs: solve", "src/solvers/line_search.rs"]}
{"id": "C86", "title": "What a gradient computed in binary64 says, and where gradient descent and BFGS stop in binary64", "statement": "With coordinates, radii and parameters of absolute value at most M, for every kind of constraint but the angle between points, and with the lengths the code divides by not close to zero: every entry of the gradient that binary64 computes for m constraints is finite and off from the derivative of the exact loss by at most m^2 2^-42 D, where D is the largest slope unit of a constraint. So when gradient descent or BFGS returns Ok in binary64 on a sketch entered constraint by constraint, or on a linear sketch that has a solution, either the iteration budget is used up, or every constraint holds up to sqrt(2 min_loss) + M 2^-47, or every constraint holds up to a stated multiple of the gradient threshold plus a stated multiple of the rounding error. On other sketches the gradient can be exactly zero although no constraint holds.", "quantifier": "all such sketches of any size (up to 2^40 constraints), all finite coordinates and parameters of absolute value at most M, all solver parameters and executions, all libms whose sine and cosine are off by at most 2^-50", "why_tests_cant": "Rounding errors depend on every bit of the input, and the stopping place on the whole run; the bound is claimed for all of them.", "anchors": ["src/constraints/**: gradient, update_gradient", "src/sketch/mod.rs: get_gradient", "src/solvers/gradient_based_solver.rs: solve", "src/solvers/bfgs_solver.rs: solve"]}
{"id": "C87", "title": "Error messages identify the error, and say what is the case", "statement": "Two errors with the same message are the same error, including the ID; the ID is written in full in decimal notation. Whatever call returns an error in whatever reachable sketch, the message is true: a reference of what is added is not in the sketch, the primitive or constraint is already there, no primitive has the ID passed; the only exception is delete_constraint on the only constraint of a sketch, which says that the constraint does not exist (compare C06).", "quantifier": "all errors with all IDs of 64 bits; all calls in all valid sketches, in every arithmetic", "why_tests_cant": "There are 2^64 IDs and unboundedly many sketches; the tests look at no message.", "anchors": ["src/error.rs", "src/sketch/mod.rs: add_primitive, add_constraint, delete_primitive, delete_constraint"]}
{"id": "C88", "title": "Separate pairs of points are solved exactly by one iteration", "statement": "If every constraint of a sketch prescribes the distance, the horizontal or vertical distance, or the horizontal or vertical alignment of two points, no point occurs in two constraints, and no two points whose distance is prescribed coincide or are more than twice as far apart as they should be, then gradient descent and BFGS return Ok after at most one iteration: they either stop at once because a threshold is met, or satisfy every constraint exactly, keep the midpoint of every pair and move no other point. With the default parameters gradient descent stops at once exactly if the loss is below 1e-14. Points further apart need more iterations.", "quantifier": "all such sketches of any size, all coordinates, all solver parameters with a positive threshold and a budget of at least one iteration", "why_tests_cant": "The claim is about sketches with any number of pairs at any coordinates, and about the exact end point.", "anchors": ["src/solvers/gradient_based_solver.rs: solve", "src/solvers/bfgs_solver.rs: solve", "src/solvers/line_search.rs", "src/constraints/distance/**", "src/constraints/lines/horizontal_line.rs", "src/constraints/lines/vertical_line.rs"]}
{"id": "C89", "title": "A mirrored sketch is solved as the mirror image, bit for bit", "statement": "In binary64, if one sketch is the mirror image of another in the x axis, in the y axis or in both (coordinates, target coordinates and signed distances with the opposite sign), gradient descent and BFGS return the same result for both - the same number of iterations, the same error, or both panic - and leave sketches that are mirror images of each other in every bit except the signs of zeros. The losses are equal, parameters and gradients are mirrored. In particular the signs of zeros in the input have no influence on any result. The same holds for Gauss-Newton and Levenberg-Marquardt if the pseudo-inverse commutes with changes of sign. Points may be tied to arcs only if x is kept. Exchanging the two axes is not such a symmetry.", "quantifier": "all sketches of any size, all binary64 coordinates (also infinite ones and NaN), all solver parameters, all libms with an odd sine, an even cosine and an arc cosine that ignores the sign of zero", "why_tests_cant": "The claim is bitwise equality of whole runs for all inputs; the tests run every sketch in one orientation.", "anchors": ["src/solvers/gradient_based_solver.rs: solve", "src/solvers/bfgs_solver.rs: solve", "src/solvers/gauss_newton_solver.rs: solve", "src/solvers/levenberg_marquardt.rs: solve", "src/solvers/line_search.rs", "src/sketch/mod.rs: get_loss, get_gradient, set_data", "src/constraints/**"]}
{"id": "C90", "title": "What is stored where has no influence on the result, in any arithmetic", "statement": "If two sketches hold the same primitives in the same order with the same numbers and references, and the same constraints in the same order, then every solver returns the same for both - the same success or error, or both panic - and leaves both with the same numbers, bit for bit; so do set_data and the readings of parameters, losses, gradient and Jacobian. Ids, addresses, gradients cached by earlier calls, senses of rotation of arcs and everything in memory that is not registered in the sketch have no influence. The order of the constraints does have an influence in binary64: it can change the loss.", "quantifier": "all pairs of valid sketches of any size whose references are registered, all numbers of any arithmetic (binary64 with any libm included), all pseudo-inverse routines, all solvers and parameters", "why_tests_cant": "The claim compares whole runs on all memories in which a drawing can be stored; the tests run each sketch once, in a fresh memory.", "anchors": ["src/solvers/**", "src/sketch/mod.rs: get_loss, get_gradient, get_jacobian, get_data, set_data, get_loss_per_constraint", "src/constraints/**", "src/primitives/**"]}
{"id": "C91", "title": "What a handle stands for changes only by assignment", "statement": "Over any sequence of calls, failed and panicking ones included: a handle to a primitive or constraint stays valid; a constraint keeps its kind; what a constraint refers to changes only by assigning new contents to that constraint, and its target values only by that or by set_desired_angle, set_desired_distance or set_desired_pos on it; the points of a line, arc or circle change only by set_start, set_end or set_center on it. No solver, deletion, registration or evaluation changes any of this. A constructor, or a method of the sketch that makes an object, returns a handle that was not in use, to an object with exactly the contents asked for and a zero gradient, and changes nothing at older handles.", "quantifier": "all histories of calls from any state, all handles, any arithmetic", "why_tests_cant": "The claim is about all sequences of calls; a test runs one.", "anchors": ["src/sketch/mod.rs", "src/primitives/**", "src/constraints/**", "src/solvers/**"]}
{"id": "C92", "title": "Angles are measured to 2^-22, and loss certificates cover every kind of constraint", "statement": "In binary64, if both arms are longer than 10^-6 by a relative margin of 2^-49, current_angle() of AngleBetweenPoints differs from the angle between the arms by at most 2^-22, and by at most 2^-46 divided by the sine of that angle; if an arm is shorter by that margin it is zero. The coarse bound is real: two arms that coincide can be reported at an angle of more than 2^-26. For every kind of constraint the square root of twice the computed loss is the distance of the constraint from its goal up to 2^-47 of the size of the sketch, or 2^-22 for an angle; so the computed total loss bounds how far each constraint can be from holding, and in particular when gradient descent or BFGS has stopped because of its loss threshold.", "quantifier": "all finite coordinates up to 2^100, all desired angles up to 2^20, all sketches with any number of constraints of all twelve kinds, all libms whose sin, cos and acos are off by at most 2^-50", "why_tests_cant": "The claim bounds the rounding error for all coordinates; the tests compare losses of a few sketches with a loose threshold.", "anchors": ["src/constraints/angle_between_points.rs: current_angle, loss_value", "src/constraints/**: loss_value", "src/sketch/mod.rs: get_loss", "src/solvers/gradient_based_solver.rs: solve", "src/solvers/bfgs_solver.rs: solve"]}
{"id": "C93", "title": "Gradient descent does not depend on the unit of length; BFGS does", "statement": "In exact arithmetic, for a sketch of points, lines and circles with HorizontalDistance, VerticalDistance, FixPoint, EqualLength, HorizontalLine and VerticalLine constraints: if all lengths and min_grad are multiplied by a positive factor and min_loss by its square, gradient descent gives the same result after the same number of iterations, or panics in both cases, and leaves the same drawing multiplied by the factor. Parameters and gradients are multiplied by the factor, the loss by its square. With EuclideanDistance, which compares a length with 1e-6, or PerpendicularLines, whose loss is not an area, this fails; and BFGS, which compares an area with 1e-16, can need four times the iterations - as many as gradient descent - after a change of unit even on the sketches above.", "quantifier": "all sketches of any size of the kinds listed, all coordinates (also infinite ones and NaN), all parameters of gradient descent, all positive real factors", "why_tests_cant": "The claim compares whole runs for all sketches and all factors; the tests run each sketch in one size.", "anchors": ["src/solvers/gradient_based_solver.rs: solve", "src/solvers/bfgs_solver.rs: solve", "src/solvers/line_search.rs", "src/sketch/mod.rs: get_loss, get_gradient, get_data, set_data", "src/constraints/**: loss_value, update_gradient"]}
{"id": "C94", "title": "Gradient descent can be interrupted and resumed bit for bit; BFGS cannot", "statement": "In any arithmetic a run of gradient descent with a budget of a + b iterations does the same as a run with a budget of a followed by a run with a budget of b: the same number of iterations in total, the same error or panic, and the same data in all primitives. For Gauss-Newton and Levenberg-Marquardt either the longer budget makes no difference, or the run with budget a used it up and the second run continues it exactly. The first case is real: called again on a sketch with which it stopped, Gauss-Newton moves it. A run of BFGS that is interrupted can take other steps, and more of them.", "quantifier": "all valid sketches of any size and content, any arithmetic, all parameters, all ways to split the budget, all pseudo-inverse routines", "why_tests_cant": "The claim compares runs for all sketches and all ways to split a budget; the tests run each solver once per sketch.", "anchors": ["src/solvers/gradient_based_solver.rs: solve", "src/solvers/gauss_newton_solver.rs: solve", "src/solvers/levenberg_marquardt.rs: solve", "src/solvers/bfgs_solver.rs: solve"]}
{"id": "C95", "title": "What is not constrained has no influence on the solvers", "statement": "If primitives are added that have no part in any constraint, or such primitives are deleted, gradient descent and BFGS take the same steps as before: they return the same number of iterations, the same error, or panic in both cases, and leave the same numbers in all primitives, those added or deleted included. In exact arithmetic this holds for any number of such primitives of any kind, wherever their ids fall in the order. Levenberg-Marquardt (with a threshold below beta) and Gauss-Newton also take the same number of iterations and leave the same numbers, if both runs end without an error and the pseudo-inverse is one of the matrices it is applied to. In binary64 the first part holds for gradient descent, bit for bit, if they come last and the number of coordinates passes no multiple of eight; if it does, the dot product adds in another order, and a free point can make a run take a step where it had stopped.", "quantifier": "all valid sketches of any size with finite coordinates, all added primitives, all parameters of gradient descent and BFGS, finite parameters of the other two; exact arithmetic and binary64 with any libm", "why_tests_cant": "The claim compares whole runs for all sketches and all additions; the tests contain no unconstrained primitive beside a constrained one that is left out for comparison.", "anchors": ["src/solvers/gradient_based_solver.rs: solve", "src/solvers/bfgs_solver.rs: solve", "src/solvers/gauss_newton_solver.rs: solve", "src/solvers/levenberg_marquardt.rs: solve", "src/solvers/line_search.rs", "src/sketch/mod.rs: get_gradient, get_jacobian, get_data, set_data, add_primitive, delete_primitive"]}
