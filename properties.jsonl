{"id": "C01", "title": "Approximate truth values stay in [0,1]", "statement": "With approximation on, greater/greater_equal/less/less_equal (with sigmoid or hard_sigmoid and any finite slope) return a number between 0 and 1, and logical_or/and/not/all/any applied to values between 0 and 1 return a value between 0 and 1.", "quantifier": "all real operands, all slopes alpha (positive, negative or small), both shipped activation functions, all argument lists of logical_all/any", "why_tests_cant": "tests sample 200 random values and five slopes", "anchors": ["differt2d/logic.py:sigmoid", "differt2d/logic.py:hard_sigmoid", "differt2d/logic.py:logical_or", "differt2d/logic.py:logical_and", "differt2d/logic.py:logical_not", "differt2d/logic.py:logical_all", "differt2d/logic.py:logical_any", "differt2d/logic.py:greater"]}
{"id": "C02", "title": "Approximate connectives agree with Boolean logic on crisp inputs and obey the lattice laws", "statement": "On inputs 0/1 the approximate connectives return the 0/1 encoding of what the Boolean connectives return; on all of [0,1] they are commutative, associative, idempotent, satisfy De Morgan's laws and double negation.", "quantifier": "all truth values in [0,1], all lists", "why_tests_cant": "algebraic laws range over a continuum", "anchors": ["differt2d/logic.py:logical_or", "differt2d/logic.py:logical_and", "differt2d/logic.py:logical_not", "differt2d/logic.py:logical_all", "differt2d/logic.py:logical_any"]}
{"id": "C03", "title": "Thresholding a smoothed comparison recovers the strict comparison for every slope", "statement": "For every alpha > 0 and either shipped activation, is_true(greater(x, y, approx=True)) holds exactly when x > y, is_false exactly when x < y, and likewise for less; greater(x,y) and less(x,y) sum to 1.", "quantifier": "all reals x, y and every alpha > 0", "why_tests_cant": "continuum of operands and slopes", "anchors": ["differt2d/logic.py:greater", "differt2d/logic.py:less", "differt2d/logic.py:is_true", "differt2d/logic.py:is_false", "differt2d/logic.py:activation"]}
{"id": "C04", "title": "Smoothed non-strict comparison disagrees with the exact one exactly at equality", "statement": "greater_equal/less_equal with approx=True are thresholded to true exactly when the comparison is strict; at x = y the exact version says true while the smoothed one returns exactly 0.5 and is_true says false. They agree everywhere else.", "quantifier": "all reals x, y and every alpha > 0", "why_tests_cant": "the disagreement set has measure zero: random tests never hit it", "anchors": ["differt2d/logic.py:greater_equal", "differt2d/logic.py:less_equal", "differt2d/logic.py:is_true"]}
{"id": "C05", "title": "Smoothing converges to exact logic", "statement": "With hard_sigmoid a smoothed comparison is exactly 0 or 1, and equal to the exact comparison, as soon as alpha*|x-y| >= 3; with sigmoid it tends to the exact 0/1 value when alpha grows, for every x != y.", "quantifier": "all x != y, all alpha (limit as alpha goes to infinity)", "why_tests_cant": "a limit statement", "anchors": ["differt2d/logic.py:hard_sigmoid", "differt2d/logic.py:sigmoid", "differt2d/logic.py:greater", "differt2d/logic.py:less"]}
{"id": "C06", "title": "is_true and is_false never contradict each other for tol <= 0.5", "statement": "With approx on, for tol <= 1/2 no value is both is_true and is_false, for tol > 1/2 some value is both; a value is neither exactly when tol <= x <= 1 - tol. With approx off they are complementary on booleans and is_true rejects floats. true_value/false_value are recognised in both modes.", "quantifier": "all values, all tolerances, both modes", "why_tests_cant": "continuum of values and tolerances", "anchors": ["differt2d/logic.py:is_true", "differt2d/logic.py:is_false", "differt2d/logic.py:true_value", "differt2d/logic.py:false_value"]}
{"id": "C07", "title": "An explicit approx argument overrides the global switch everywhere", "statement": "For every logic function, geometric predicate and path validity check, passing approx=True/False gives a result that does not depend on ENABLE_APPROX, and passing approx=None gives the result of passing the current value of ENABLE_APPROX.", "quantifier": "all inputs, both values of the switch", "why_tests_cant": "must hold through every nested call", "anchors": ["differt2d/logic.py:ENABLE_APPROX", "differt2d/logic.py:logical_or", "differt2d/geometry.py:segments_intersect", "differt2d/geometry.py:Path.is_valid"]}
{"id": "C08", "title": "enable_approx/disable_approx restore the switch on every exit", "statement": "In one thread, after a `with enable_approx(b)` block ends, normally or by an exception raised anywhere in an arbitrarily nested body that may also call set_approx, ENABLE_APPROX has the value it had on entry; inside, reads return b until the body itself changes it; disable_approx(b) behaves as enable_approx(not b).", "quantifier": "all block nestings, all bodies, all points where an exception is raised", "why_tests_cant": "unbounded nesting and every crash point", "anchors": ["differt2d/logic.py:enable_approx", "differt2d/logic.py:disable_approx", "differt2d/logic.py:set_approx"]}
{"id": "C09", "title": "Inside an enable_approx block no other thread can change what the block reads", "statement": "Whatever the interleaving of any number of threads each running any sequence of enable_approx blocks and set_approx calls, the values of ENABLE_APPROX read by a thread inside its blocks are those it would read if it ran alone.", "quantifier": "all thread counts, programs and schedules", "why_tests_cant": "interleavings cannot be enumerated by tests", "anchors": ["differt2d/logic.py:enable_approx", "differt2d/logic.py:set_approx", "differt2d/logic.py:_LOCK"]}
{"id": "C10", "title": "enable_approx does not restore the switch under concurrency", "statement": "Because the old value is read before the lock is taken, there is a schedule of two threads, each running one enable_approx block, after which both are finished and ENABLE_APPROX differs from its initial value (the documented restore property fails across threads); no schedule deadlocks.", "quantifier": "existence of a schedule / all schedules for deadlock freedom", "why_tests_cant": "the failing interleaving is a narrow race", "anchors": ["differt2d/logic.py:enable_approx", "differt2d/logic.py:_LOCK"]}
{"id": "C11", "title": "Compiled functions freeze the switch at first call", "statement": "For a jitted logic function called with approx=None, every call with the same static arguments and signature after the first (until its cache is cleared) behaves as with the switch value of that first call, whatever set_approx/enable_approx calls happen in between; with explicit approx every call in every history behaves according to that argument.", "quantifier": "all histories of calls, switch changes and cache clears", "why_tests_cant": "depends on the whole call history of the process", "anchors": ["differt2d/logic.py:enable_approx", "differt2d/logic.py:greater", "differt2d/logic.py:set_approx"]}
{"id": "C12", "title": "segments_intersect decides exactly the relaxed crossing condition", "statement": "With approx=False, segments_intersect(P1,P2,P3,P4,tol) is true exactly when the two supporting lines are not parallel and the common point is P1+a(P2-P1)=P3+b(P4-P3) for some a, b both in [-tol, 1+tol]; with tol=0 this is that non-parallel closed segments share a point.", "quantifier": "all quadruples of points, all tolerances", "why_tests_cant": "continuum; boundary cases have measure zero", "anchors": ["differt2d/geometry.py:segments_intersect"]}
{"id": "C13", "title": "Parallel, collinear or degenerate segments never intersect", "statement": "When the segments are parallel (including overlapping collinear segments and zero-length segments) segments_intersect is false with approx=False and exactly 0 with approx=True, for every alpha > 0; no division by zero or NaN escapes.", "quantifier": "all parallel pairs, all alpha > 0, both activations", "why_tests_cant": "measure-zero set of inputs", "anchors": ["differt2d/geometry.py:segments_intersect"]}
{"id": "C14", "title": "segments_intersect is symmetric", "statement": "The result (exact and smoothed) is unchanged by swapping the endpoints of either segment or by exchanging the two segments.", "quantifier": "all points, tolerances, alphas, both modes", "why_tests_cant": "continuum", "anchors": ["differt2d/geometry.py:segments_intersect"]}
{"id": "C15", "title": "Thresholded smoothed intersection agrees with the exact one off the boundary", "statement": "For alpha > 0, is_true(segments_intersect(..., approx=True)) implies the exact answer is true, and when the exact answer is false is_false holds for the smoothed one; they can only differ when a crossing parameter is exactly -tol or 1+tol.", "quantifier": "all segments, all alpha > 0, both activations", "why_tests_cant": "boundary cases have measure zero", "anchors": ["differt2d/geometry.py:segments_intersect", "differt2d/logic.py:is_true", "differt2d/logic.py:is_false"]}
{"id": "C16", "title": "path_length approximates the polyline length within a bound proportional to eps", "statement": "path_length differs from the exact polyline length by at most sqrt(2)*eps per segment, is non-negative, is translation invariant, is at least the end-to-end distance minus that bound, and can be 0 only if every segment is (-eps,-eps).", "quantifier": "all point lists of any length, all eps >= 0", "why_tests_cant": "unbounded length and continuum", "anchors": ["differt2d/geometry.py:path_length", "differt2d/geometry.py:Path.length"]}
{"id": "C17", "title": "normalize returns a unit vector and its length, or zero and one", "statement": "For a non-zero vector normalize returns a unit vector u and length l > 0 with l*u equal to the input; for the zero vector it returns (0,0) and 1.", "quantifier": "all vectors", "why_tests_cant": "continuum", "anchors": ["differt2d/geometry.py:normalize"]}
{"id": "C18", "title": "closest_point returns the first nearest point", "statement": "closest_point returns an index in range whose distance is the returned distance, minimal over all points, and strictly smaller than the distance of every earlier point; it fails on an empty array. get_closest_transmitter/receiver return the name at that index.", "quantifier": "all non-empty lists of points, all targets", "why_tests_cant": "unbounded lists", "anchors": ["differt2d/geometry.py:closest_point", "differt2d/scene.py:Scene.get_closest_transmitter", "differt2d/scene.py:Scene.get_closest_receiver"]}
{"id": "C19", "title": "image_of is the mirror reflection across the wall's line", "statement": "For a wall of positive length image_of is an involution and an isometry, fixes exactly the points of the wall's line, is independent of the order of the wall's endpoints, and the midpoint of a point and its image lies on the line while their difference is normal to it; normal() is a unit vector orthogonal to the wall. For a zero-length wall image_of is the identity.", "quantifier": "all walls, all points", "why_tests_cant": "continuum", "anchors": ["differt2d/geometry.py:Wall.image_of", "differt2d/geometry.py:Wall.normal"]}
{"id": "C20", "title": "Parametric and Cartesian wall coordinates are inverse, and projection is orthogonal", "statement": "For a wall of positive length cartesian_to_parametric(parametric_to_cartesian(t)) = t; parametric_to_cartesian(cartesian_to_parametric(p)) is the point of the wall's line nearest to p and equals p exactly when p is on the line; parameters 0 and 1 are the endpoints. Zero-length walls give parameter 0.", "quantifier": "all walls, parameters and points", "why_tests_cant": "continuum", "anchors": ["differt2d/geometry.py:Wall.parametric_to_cartesian", "differt2d/geometry.py:Wall.cartesian_to_parametric"]}
{"id": "C21", "title": "contains_parametric and sampling", "statement": "With approx=False contains_parametric([t]) holds exactly when 0 <= t <= 1; every point sampled on an object, for every random draw in [0,1), lies on the object and is reported contained after conversion back.", "quantifier": "all walls including zero-length ones, all draws", "why_tests_cant": "continuum of draws", "anchors": ["differt2d/geometry.py:Wall.contains_parametric", "differt2d/abc.py:Interactable.sample"]}
{"id": "C22", "title": "Wall interaction score is zero exactly at specular reflection", "statement": "Wall.evaluate_cartesian is always between 0 and 4, is 0 exactly when the normalised outgoing direction is the mirror image of the normalised incoming direction, is 4 exactly when it is the opposite, and is unchanged by reversing the path or the wall.", "quantifier": "all walls of positive length, all triples of points", "why_tests_cant": "continuum", "anchors": ["differt2d/geometry.py:Wall.evaluate_cartesian", "differt2d/abc.py:Interactable.evaluate_cartesian"]}
{"id": "C23", "title": "RIS interaction score depends only on the outgoing angle", "statement": "RIS.evaluate_cartesian is between 0 and 4 when the outgoing leg is non-degenerate, ignores the incident point, equals 2 - 2cos(angle - phi), is 0 exactly when the outgoing angle is phi modulo a full turn, and is 2pi-periodic in phi.", "quantifier": "all RIS, all triples of points, all phi", "why_tests_cant": "continuum", "anchors": ["differt2d/geometry.py:RIS.evaluate_cartesian"]}
{"id": "C24", "title": "Vertices: never obstruct, always accept, and the paths through them", "statement": "A Vertex never intersects a ray, contains every parameter vector, has score 0 and maps every parameter vector to its own position; hence adding vertices to a scene changes neither intersection nor the validity of a path that does not visit them. The path of any class but the image method through given vertices goes exactly through them, with loss 0, whatever the random key and the optimiser, so a path through the get_vertices() of a wall bends at its ends; when the candidates are filtered to vertices, the valid paths are exactly the broken lines through min_order to max_order of them (never the same twice in a row) that no object obstructs. A ray that reaches an end of a wall from off its line is stopped by that wall iff patch >= -1/202 (documented as a warning), so without a smaller patch no valid path bends at an end of a wall of the scene it does not interact with, except along that wall's line.", "quantifier": "all vertices, rays, modes, positions in the object list; all scenes, path classes, keys, optimisers, orders and filters that keep only vertices; all walls, patches above -1/2", "why_tests_cant": "all scenes", "anchors": ["differt2d/geometry.py:Vertex", "differt2d/geometry.py: Wall.get_vertices", "differt2d/scene.py: Scene.filter_objects", "examples/plot_vertex_diffraction_power_map.py"]}
{"id": "C25", "title": "Ray.rotate does not rotate", "statement": "rotate(angle, around=None) multiplies the 2x2 point array by the rotation matrix on the wrong side: the result is the ray whose endpoints are combinations of the two input endpoints, not the rotated endpoints. It equals the true rotation exactly for rays satisfying two linear equations when sin(angle) != 0 (in particular for angles that are multiples of pi it is always right) and does not preserve length in general.", "quantifier": "all rays, angles, centres", "why_tests_cant": "the shipped test only uses odd multiples of pi, where the defect is invisible", "anchors": ["differt2d/geometry.py:Ray.rotate"]}
{"id": "C26", "title": "stack_leaves and unstack_leaves are inverse", "statement": "Unstacking the stack of a non-empty list of objects of one type gives the list back; stacking objects of different types (ValueError) or nothing (TypeError) is rejected; Scene.from_stacked_objects(scene.stacked_objects()) keeps the objects; from_walls_array(stacked coordinates) rebuilds the walls.", "quantifier": "all non-empty homogeneous lists", "why_tests_cant": "unbounded lists", "anchors": ["differt2d/geometry.py:stack_leaves", "differt2d/geometry.py:unstack_leaves", "differt2d/scene.py:Scene.stacked_objects", "differt2d/scene.py:Scene.from_stacked_objects", "differt2d/scene.py:Scene.from_walls_array"]}
{"id": "C27", "title": "Bounding boxes are tight", "statement": "bounding_box of a point, wall, path or scene contains every defining point, and each of its four bounds is attained by some defining point; a scene without any transmitter, receiver or object is rejected.", "quantifier": "all objects and scenes", "why_tests_cant": "unbounded lists", "anchors": ["differt2d/geometry.py:Point.bounding_box", "differt2d/geometry.py:Ray.bounding_box", "differt2d/geometry.py:Path.bounding_box", "differt2d/scene.py:Scene.bounding_box"]}
{"id": "C28", "title": "Locations, centre and grid lie inside the bounding box", "statement": "get_location returns the compass point it names, always inside the box; center equals get_location('C'); grid(m,n) has n rows and m columns, all samples inside the box, x constant along columns and y along rows, evenly spaced, and includes the four corners when m,n >= 2. grid(m) is grid(m,m), and grid() is 50 by 50.", "quantifier": "all boxes, locations, grid sizes", "why_tests_cant": "unbounded sizes", "anchors": ["differt2d/abc.py:Plottable.get_location", "differt2d/abc.py:Plottable.center", "differt2d/abc.py:Plottable.grid"]}
{"id": "C29", "title": "Every path constructor returns n+2 points from tx to rx", "statement": "Path, ImagePath, FermatPath and MinPath.from_tx_objects_rx on n objects return a path with n+2 points, first tx and last rx; with no object it is the straight segment with loss 0. The base class Path goes through the middle of each object, with loss 0.", "quantifier": "all object lists, all nodes, all random keys, all optimisers whose updates keep the array shape", "why_tests_cant": "unbounded n and arbitrary solver output", "anchors": ["differt2d/geometry.py:Path.from_tx_objects_rx", "differt2d/geometry.py:ImagePath.from_tx_objects_rx", "differt2d/geometry.py:FermatPath.from_tx_objects_rx", "differt2d/geometry.py:MinPath.from_tx_objects_rx"]}
{"id": "C30", "title": "Optimised paths visit the objects in order, whatever the solver returns", "statement": "In a FermatPath or MinPath the (i+1)-th point lies on the supporting line of the i-th wall (at the parameter allotted to that wall) or at the i-th vertex; parameters are consumed left to right, each exactly once.", "quantifier": "all mixed lists of walls, RIS and vertices, all parameter vectors", "why_tests_cant": "unbounded lists, arbitrary solver output", "anchors": ["differt2d/geometry.py:parametric_to_cartesian", "differt2d/geometry.py:parametric_to_cartesian_from_slice", "differt2d/geometry.py:FermatPath.from_tx_objects_rx", "differt2d/geometry.py:MinPath.from_tx_objects_rx"]}
{"id": "C31", "title": "Image-method points lie on the walls and obey specular geometry", "statement": "When no step is degenerate, the i-th interior point of an ImagePath lies on the i-th wall's line and on the line through the i-th image and the next point.", "quantifier": "all wall lists of any length, all nodes", "why_tests_cant": "unbounded number of reflections", "anchors": ["differt2d/geometry.py:ImagePath.from_tx_objects_rx", "differt2d/geometry.py:Wall.image_of"]}
{"id": "C32", "title": "Image-method loss counts the interactions on the wrong side", "statement": "For an ImagePath in general position the loss is exactly 4 times the number of walls crossed (previous and next path points strictly on opposite sides) and 0 contributions come from true reflections; hence for the default tolerance the loss test holds exactly when every interaction is a true reflection.", "quantifier": "all wall lists of any length in general position", "why_tests_cant": "unbounded number of reflections", "anchors": ["differt2d/geometry.py:ImagePath.from_tx_objects_rx", "differt2d/geometry.py:Wall.evaluate_cartesian", "differt2d/geometry.py:Path.is_valid"]}
{"id": "C33", "title": "An image path with only true reflections is the shortest path through its walls", "statement": "For an ImagePath in general position whose interactions are all true reflections (equivalently, by C32, with loss below tol <= 4), its polyline length equals the distance from the last image of tx to rx, and no other polyline from tx to rx visiting the same wall lines in the same order is shorter. It is the only polyline that short.", "quantifier": "all wall lists, all competing polylines", "why_tests_cant": "quantifies over all competitors", "anchors": ["differt2d/geometry.py:ImagePath.from_tx_objects_rx", "differt2d/geometry.py:path_length"]}
{"id": "C34", "title": "Image paths are reciprocal", "statement": "Exchanging tx and rx and reversing the wall list yields the reversed ImagePath with the same loss, when both directions are in general position, or when one direction is and all its interactions are true reflections; on_objects, intersects_with_objects and is_valid (exact and smoothed) give the same verdict for the reversed path and candidate.", "quantifier": "all scenes, wall lists, nodes", "why_tests_cant": "unbounded reflections", "anchors": ["differt2d/geometry.py:ImagePath.from_tx_objects_rx", "differt2d/geometry.py:Path.is_valid"]}
{"id": "C35", "title": "Degenerate image steps are rejected", "statement": "If a wall is parallel to the segment from its image to the next point (including a zero-length wall), the ImagePath repeats the next point, and unless the whole path collapses to the single point tx = rx the loss is at least 1, so the path is not valid for tol <= 1; the collapse case (e.g. tx = rx and a zero-length wall) yields loss 0.", "quantifier": "all wall lists", "why_tests_cant": "measure-zero configurations", "anchors": ["differt2d/geometry.py:ImagePath.from_tx_objects_rx", "differt2d/geometry.py:Wall.evaluate_cartesian"]}
{"id": "C36", "title": "on_objects checks only the projection", "statement": "With approx=False on_objects is true exactly when for every i the orthogonal projection of the (i+1)-th point on the i-th wall's line falls within the wall (vertices always pass); it does not imply that the point is on the wall.", "quantifier": "all paths and object lists", "why_tests_cant": "unbounded lists", "anchors": ["differt2d/geometry.py:Path.on_objects", "differt2d/geometry.py:Wall.cartesian_to_parametric"]}
{"id": "C37", "title": "intersects_with_objects checks every non-adjacent object on every segment", "statement": "With approx=False intersects_with_objects is true exactly when some path segment crosses (in the relaxed sense, with the wall enlarged by patch on both sides) some wall that is not one of the candidate's objects at either end of that segment.", "quantifier": "all paths, object lists, candidates, patch values", "why_tests_cant": "unbounded lists", "anchors": ["differt2d/geometry.py:Path.intersects_with_objects", "differt2d/geometry.py:Wall.intersects_cartesian"]}
{"id": "C38", "title": "Exact validity is the conjunction of the three documented requirements", "statement": "With approx=False is_valid is true exactly when the loss is below tol, all interaction points project inside their objects, and no segment crosses a non-adjacent object. With the default arguments the loss must be below 0.01 and the objects are not extended.", "quantifier": "all paths, scenes, candidates, tolerances", "why_tests_cant": "unbounded scenes", "anchors": ["differt2d/geometry.py:Path.is_valid"]}
{"id": "C39", "title": "Smoothed validity is always a number in [0,1]", "statement": "With approx=True is_valid returns a finite number between 0 and 1 (never NaN or infinite) for every scene, path, patch, tolerance, activation and every finite slope, including 0.", "quantifier": "all scenes and slopes", "why_tests_cant": "NaN arises only on measure-zero inputs (parallel segments with alpha = 0)", "anchors": ["differt2d/geometry.py:Path.is_valid", "differt2d/geometry.py:segments_intersect"]}
{"id": "C40", "title": "Smoothed valid paths are exactly the exactly-valid ones off the wall ends", "statement": "For every alpha > 0 and either activation, a path with is_true(is_valid(approx=True)) is valid with approx=False; conversely an exactly valid path is accepted by the smoothed test unless some interaction point projects exactly on an endpoint of its wall.", "quantifier": "all scenes, paths, slopes", "why_tests_cant": "continuum; exceptional set of measure zero", "anchors": ["differt2d/geometry.py:Path.is_valid", "differt2d/logic.py:is_true", "differt2d/scene.py:Scene.all_valid_paths"]}
{"id": "C41", "title": "Validity is antitone in the obstacles and in the patch", "statement": "With approx=False, adding objects at the end of the scene, or (for non-negative patch) increasing patch, or decreasing the loss tolerance can only turn a valid path invalid; with approx=True adding objects can only lower the validity score.", "quantifier": "all scenes, paths, added objects", "why_tests_cant": "all scenes", "anchors": ["differt2d/geometry.py:Path.is_valid", "differt2d/geometry.py:Path.intersects_with_objects", "differt2d/scene.py:Scene.add_objects"]}
{"id": "C42", "title": "A wall just behind the receiver blocks the line of sight", "statement": "Because of the relative tolerance, there are scenes in which no object meets the segment from tx to rx and yet the line-of-sight path is reported invalid; this happens only if a wall line is met within 0.5 percent of the segment length beyond an end (or the ray passes within 0.5 percent of a wall end).", "quantifier": "existence / all scenes", "why_tests_cant": "needs the exact boundary analysis", "anchors": ["differt2d/geometry.py:segments_intersect", "differt2d/geometry.py:Path.is_valid"]}
{"id": "C43", "title": "minimize returns the loss of the last-but-one iterate", "statement": "minimize performs exactly `steps` optimiser updates from x0 and returns the iterate after the last update together with the objective at the iterate before it; so the returned loss is not the objective at the returned point (the documented 'corresponding loss') in general, and steps = 0 fails.", "quantifier": "all objectives, gradients, optimisers, step counts", "why_tests_cant": "functions and optimisers are arbitrary", "anchors": ["differt2d/optimize.py:minimize"]}
{"id": "C44", "title": "minimize_many_random_uniform returns the best trial", "statement": "For many >= 1 the returned (point, loss) is one of the `many` trials, its reported loss is minimal among the trials' reported losses and it is the first such trial; many = 1 runs the single trial with the undivided key.", "quantifier": "all objectives, keys, trial counts", "why_tests_cant": "arbitrary objectives", "anchors": ["differt2d/optimize.py:minimize_many_random_uniform", "differt2d/optimize.py:minimize_random_uniform"]}
{"id": "C45", "title": "Path candidates are exactly the admissible index sequences, each once", "statement": "all_path_candidates(min_order,max_order) lists, without duplicates and by non-decreasing order, exactly the index sequences of length in [min_order,max_order] over the object indices with no two equal consecutive indices and no filtered-out object; order=k equals min=max=k; the number of order-k candidates over n usable objects is 1 for k = 0 and n(n-1)^(k-1) otherwise; the set is closed under reversal. Without arguments: the direct path, then one interaction with each object in turn.", "quantifier": "all object counts, orders and filters", "why_tests_cant": "combinatorial explosion", "anchors": ["differt2d/scene.py:all_path_candidates", "differt2d/scene.py:Scene.all_path_candidates"]}
{"id": "C46", "title": "filter_objects restricts candidates but not obstruction", "statement": "Passing filter_objects to all_path_candidates gives exactly the unfiltered candidates all of whose objects satisfy the predicate, in the same order; a predicate accepting everything changes nothing.", "quantifier": "all scenes and predicates", "why_tests_cant": "all predicates", "anchors": ["differt2d/scene.py:Scene.all_path_candidates", "differt2d/scene.py:all_path_candidates"]}
{"id": "C47", "title": "get_interacting_objects returns the indexed objects for admissible candidates only", "statement": "For every candidate whose indices are in range, get_interacting_objects returns the objects at these indices in order, for homogeneous and mixed scenes; for negative indices a homogeneous scene clamps to object 0 while a mixed scene counts from the end, so the two disagree.", "quantifier": "all scenes and candidates", "why_tests_cant": "all scenes", "anchors": ["differt2d/scene.py:Scene.get_object", "differt2d/scene.py:Scene.get_interacting_objects"]}
{"id": "C48", "title": "PyTreeDict is a faithful immutable mapping", "statement": "PyTreeDict.from_mapping(d) has the same keys in the same order, len and iteration agree, d[k] and `in` agree with the source, a missing key raises KeyError, items() pairs each key with its value; construction with mismatched lengths is rejected.", "quantifier": "all mappings", "why_tests_cant": "all mappings", "anchors": ["differt2d/scene.py:PyTreeDict"]}
{"id": "C49", "title": "Scene updates touch only the named component", "statement": "with_/update_/rename_ transmitters (receivers) leave receivers (transmitters) and objects unchanged; update is the right-biased union that keeps existing order and appends new names; with_ replaces; with_objects/add_objects/filter_objects leave both node maps unchanged and produce, respectively, the given objects, the concatenation and the order-preserving sublist; every reachable scene has pairwise distinct node names.", "quantifier": "all scenes, all sequences of update operations", "why_tests_cant": "all histories of updates", "anchors": ["differt2d/scene.py:Scene.with_transmitters", "differt2d/scene.py:Scene.update_transmitters", "differt2d/scene.py:Scene.with_objects", "differt2d/scene.py:Scene.filter_objects", "differt2d/scene.py:Scene.add_objects"]}
{"id": "C50", "title": "Renaming is simultaneous and loses nodes only on collision", "statement": "rename_transmitters/receivers map every node's name simultaneously (swaps work), keep all points and their order when the renamed names are distinct, ignore unknown names, and otherwise silently drop all but the last of the nodes that collide.", "quantifier": "all scenes and renamings", "why_tests_cant": "all renamings", "anchors": ["differt2d/scene.py:Scene.rename_transmitters", "differt2d/scene.py:Scene.rename_receivers"]}
{"id": "C51", "title": "all_paths enumerates every (transmitter, receiver, candidate) once", "statement": "all_paths yields, in order, one item for each transmitter, receiver and path candidate, with the path built between those two nodes on the candidate's objects and its validity; the node names and candidate are those of the path. Without arguments, in a scene of walls, these are for each pair the direct path and the image-method reflection on each wall, tested with tolerance 0.01 and no patch.", "quantifier": "all scenes, orders, path classes, keys", "why_tests_cant": "unbounded scenes", "anchors": ["differt2d/scene.py:Scene.all_paths", "differt2d/scene.py:Scene.all_transmitter_receiver_pairs"]}
{"id": "C52", "title": "all_valid_paths is all_paths filtered by is_true", "statement": "all_valid_paths yields exactly the items of all_paths whose validity passes is_true with the same approx, in the same order, without the validity field; it never raises a type error of its own.", "quantifier": "all scenes, orders, modes", "why_tests_cant": "unbounded scenes", "anchors": ["differt2d/scene.py:Scene.all_valid_paths", "differt2d/logic.py:is_true"]}
{"id": "C53", "title": "accumulate_over_paths sums validity-weighted values per pair", "statement": "accumulate_over_paths yields for each (transmitter, receiver) pair, in order, the sum over its paths of validity times fun, provided there is at least one candidate; when there is no candidate at all it yields nothing (instead of a zero per pair); reduce_all=True returns the total.", "quantifier": "all scenes, functions, orders", "why_tests_cant": "unbounded scenes; grouping correctness", "anchors": ["differt2d/scene.py:Scene.accumulate_over_paths"]}
{"id": "C54", "title": "Grid accumulation equals pointwise accumulation", "statement": "accumulate_on_receivers_grid_over_paths (transmitters_grid) gives for each transmitter (receiver) an array whose entry at (i,j) equals what accumulate_over_paths gives for a single receiver (transmitter) placed at (X[i,j],Y[i,j]) when no random key is used and there is at least one candidate; the scene's own receivers (transmitters) are irrelevant; shapes equal the grid's shape; if the path of some candidate cannot be built the grid functions raise.", "quantifier": "all scenes, grids, functions", "why_tests_cant": "unbounded grids", "anchors": ["differt2d/scene.py:Scene.accumulate_on_receivers_grid_over_paths", "differt2d/scene.py:Scene.accumulate_on_transmitters_grid_over_paths"]}
{"id": "C55", "title": "Grid reduction with no opposite node is a scalar", "statement": "With reduce_all=True the grid methods return the entrywise sum of the per-node arrays when there is at least one opposite node, but a scalar 0 (not an array of the grid's shape) when there is none; value_and_grad takes precedence over grad and returns the pair.", "quantifier": "all scenes and grids", "why_tests_cant": "edge case of the fold", "anchors": ["differt2d/scene.py:Scene.accumulate_on_receivers_grid_over_paths", "differt2d/scene.py:Scene.accumulate_on_transmitters_grid_over_paths"]}
{"id": "C56", "title": "random_uniform_scene uses every random point exactly once", "statement": "random_uniform_scene(nt,nw,nr) has nt transmitters tx_0.., nw walls and nr receivers rx_0.. with distinct names, and the transmitter positions, wall ends and receiver positions together are the drawn points, each used exactly once.", "quantifier": "all counts and draws", "why_tests_cant": "index arithmetic for all sizes", "anchors": ["differt2d/scene.py:Scene.random_uniform_scene"]}
{"id": "C57", "title": "from_geojson builds one wall per consecutive vertex pair of each polygon, cyclically", "statement": "For Polygon features from_geojson creates for the outer ring of k positions exactly k walls joining consecutive positions cyclically; for a closed ring (as GeoJSON requires) one of them is a zero-length wall, so there are k walls for k-1 edges. Features without geometry are skipped. tx and rx are placed at the requested locations of the bounding box of the walls, or (0,0) and (1,1) if there are none; by default tx is at the upper left corner of that box and rx at the lower right one. Positions with an altitude raise a type error.", "quantifier": "all feature collections", "why_tests_cant": "unbounded inputs", "anchors": ["differt2d/scene.py:Scene.from_geojson"]}
{"id": "C58", "title": "from_geojson fails on Point features and on documents of another shape", "statement": "A feature collection containing a Point feature raises a TypeError although only polygons are used, because the first coordinate is measured before the geometry type is tested; line strings and multipolygons are ignored as intended; a geometry without coordinates raises KeyError and with empty coordinates IndexError; a document or a feature that is not an object raises AttributeError, a geometry that is neither empty nor an object raises TypeError, coordinates (or a ring of a polygon) that are an object raise KeyError, numbers, booleans and null in their place raise TypeError.", "quantifier": "all feature collections with such a feature, after any features that are accepted", "why_tests_cant": "all inputs", "anchors": ["differt2d/scene.py:Scene.from_geojson"]}
{"id": "C59", "title": "Built-in scenes", "statement": "square_scene, square_scene_with_wall(ratio) and square_scene_with_obstacle(ratio) have 4, 5 and 8 walls, closed square outlines, and bounding box [0,1]x[0,1] for every ratio in [0,1] and every tx/rx inside the unit square; basic_scene has 7 walls in the same box, the inner ones closing a room in the lower left corner except for an entrance; the default node positions are in the room.", "quantifier": "all ratios in [0,1], all node positions in the room", "why_tests_cant": "continuum", "anchors": ["differt2d/scene.py:Scene.square_scene", "differt2d/scene.py:Scene.square_scene_with_wall", "differt2d/scene.py:Scene.square_scene_with_obstacle", "differt2d/scene.py:Scene.basic_scene"]}
{"id": "C60", "title": "received_power bounds and monotonicity", "statement": "For height != 0 and 0 <= r_coef <= 1 received_power is finite, in [0, 1/height^2], non-increasing in the path length and in the number of interactions, and independent of the nodes and objects; with default parameters it never exceeds P0 = 100 and is exactly 100 / (1 + 100 r^2) for a path of length r, halved by each interaction.", "quantifier": "all paths, coefficients, heights", "why_tests_cant": "continuum", "anchors": ["differt2d/utils.py:received_power", "differt2d/utils.py:P0"]}
{"id": "C61", "title": "Validity and image paths are invariant under rigid motions of the scene", "statement": "Translating or rotating the whole scene (nodes and walls) moves the ImagePath accordingly and leaves its loss, on_objects, intersects_with_objects and is_valid unchanged, exact and smoothed.", "quantifier": "all scenes and rigid motions", "why_tests_cant": "continuum of motions", "anchors": ["differt2d/geometry.py:ImagePath.from_tx_objects_rx", "differt2d/geometry.py:Path.is_valid", "differt2d/geometry.py:segments_intersect"]}
{"id": "C62", "title": "Accumulated received power is non-negative and monotone", "statement": "The accumulated default received power of every pair is finite and non-negative in both modes; with approx=False it equals the sum of the powers of the valid paths only, and raising max_order never decreases it.", "quantifier": "all scenes, orders, modes", "why_tests_cant": "unbounded scenes", "anchors": ["differt2d/scene.py:Scene.accumulate_over_paths", "differt2d/utils.py:received_power"]}
{"id": "C63", "title": "Valid image paths are physical reflection paths", "statement": "If is_valid (approx=False, 0 < tol <= 4) accepts an ImagePath in general position, then every interaction point really lies on its wall segment (not only its projection), the previous and next points are on the same side of the wall, the reflection law holds there, no segment crosses a non-adjacent object, and the path is the shortest one visiting these wall lines in order.", "quantifier": "all scenes, candidates, orders, transmitters, receivers, patches", "why_tests_cant": "continuum of scenes and unbounded order", "anchors": ["differt2d/geometry.py:ImagePath.from_tx_objects_rx", "differt2d/geometry.py:Path.is_valid"]}
{"id": "C64", "title": "The image method misses no specular path, and finds nothing else", "statement": "Every polyline from tx to rx that meets the lines of the walls in order and obeys the reflection law at each (with the previous point off the wall line and consecutive points distinct) is exactly the ImagePath, whose loss is then 0. Hence, in a scene whose objects accepted by filter_objects are walls (tol <= 1, nodes at different places), all_valid_paths with ImagePath yields exactly the reflection paths on min_order to max_order accepted walls that meet no other object: each of them, nothing else, each with loss 0, no configuration excepted; in smoothed mode (any alpha > 0) those whose reflection points are not ends of walls. With approx=False accumulate_over_paths gives the sum of fun over these paths, each counted once.", "quantifier": "all transmitters, receivers, wall lists of any length, polylines; all scenes, filters that accept only walls, orders, both modes", "why_tests_cant": "existential completeness over a continuum", "anchors": ["differt2d/geometry.py:ImagePath.from_tx_objects_rx", "differt2d/scene.py:Scene.all_valid_paths", "differt2d/scene.py:Scene.accumulate_over_paths"]}
{"id": "C65", "title": "Smoothed logic is Lipschitz", "statement": "With approx=True, greater/greater_equal/less/less_equal change by at most |alpha|/4 (sigmoid) or |alpha|/6 (hard_sigmoid, attained) times the total change of their finite operands, and logical_and/or/not/all/any never amplify a change of their operands.", "quantifier": "all finite operands, slopes, shipped activations, list lengths", "why_tests_cant": "a bound for every pair of operands and every slope", "anchors": ["differt2d/logic.py:greater", "differt2d/logic.py:logical_all", "differt2d/logic.py:activation"]}
{"id": "C66", "title": "Smoothed segment crossing is continuous off collinear configurations", "statement": "With approx=True and alpha>0, segments_intersect is a continuous function of its four points except when all four lie on one line (parallel segments included: value tends to 0); on overlapping collinear segments it jumps from 1 to 0.", "quantifier": "all points, tolerances, slopes, converging sequences", "why_tests_cant": "continuity is a statement about all sequences of inputs", "anchors": ["differt2d/geometry.py:segments_intersect"]}
{"id": "C67", "title": "Smoothed validity is continuous", "statement": "With approx=True and alpha>0, Path.is_valid is continuous in the path points, the loss, the scene objects and the interacting objects, wherever no segment lies on the line of a wall it does not touch and the interacting walls are not degenerate.", "quantifier": "all paths, objects, candidates, tolerances, converging sequences", "why_tests_cant": "continuity quantifies over all sequences", "anchors": ["differt2d/geometry.py:Path.is_valid"]}
{"id": "C68", "title": "The image path is continuous in general position", "statement": "The points and the loss of ImagePath.from_tx_objects_rx are continuous in tx, rx and the walls at every configuration in general position; at a configuration where the last segment becomes parallel to the wall the point runs away to infinity.", "quantifier": "all transmitters, receivers, walls or RIS, any number of them, converging sequences", "why_tests_cant": "continuity quantifies over all sequences", "anchors": ["differt2d/geometry.py:ImagePath.from_tx_objects_rx"]}
{"id": "C69", "title": "Accumulated smoothed values are continuous in the scene", "statement": "With ImagePath and approx=True, the values of accumulate_over_paths (per pair and with reduce_all) for a continuous path function (received_power with non-zero height is one) are continuous in all coordinates of the scene, wherever no path is singular; with approx=False they jump.", "quantifier": "all scenes, candidates, path functions, converging sequences of scenes", "why_tests_cant": "continuity quantifies over all sequences of scenes", "anchors": ["differt2d/scene.py:Scene.accumulate_over_paths", "differt2d/utils.py:received_power"]}
{"id": "C70", "title": "Plotting draws every node and object once, in order, and returns the artists", "statement": "On axes that accept every call, Scene.plot draws every selected transmitter, then object, then receiver exactly once, in the order of the scene, at its position, annotated with its non-empty name, at the given offset, when annotate is set (it is by default), with the user's styles taking precedence over the defaults, and returns what the axes returned, in that order; a general color keyword raises TypeError as soon as there is a node to draw; what was drawn before is never lost.", "quantifier": "all scenes, styles and options, all axes", "why_tests_cant": "the tests only check the number or type of artists on a few scenes", "anchors": ["differt2d/scene.py:Scene.plot", "differt2d/geometry.py:Point.plot", "differt2d/geometry.py:Vertex.plot", "differt2d/geometry.py:Ray.plot", "differt2d/geometry.py:RIS.plot", "differt2d/geometry.py:Path.plot"]}
{"id": "C71", "title": "Smoothed truth values stay in [0, 1] in float32", "statement": "In float32, smoothed comparisons and connectives only produce numbers between 0 and 1 or NaN, whatever the operands (overflow, underflow, infinities and NaN included), whether the division by 6 is done as such or as a product by the rounded inverse; a comparison of finite numbers with a finite non-zero alpha is never NaN.", "quantifier": "all float32 values, all activation functions with values in [0, 1]", "why_tests_cant": "2^64 pairs of operands; rounding can push results past 1", "anchors": ["differt2d/logic.py:hard_sigmoid", "differt2d/logic.py:greater", "differt2d/logic.py:logical_and", "differt2d/logic.py:logical_all"]}
{"id": "C72", "title": "Smoothed float32 comparisons respect the order", "statement": "For positive finite alpha, the float32 smoothed comparison is monotone in both arguments, exactly 1 or 0 when the computed alpha*(x-y) is beyond 3 or -3, above 1/2 only if x>y and below 1/2 only if x<y, and exactly 1/2 when |alpha*(x-y)| is at most 2^-23.", "quantifier": "all float32 operands and slopes", "why_tests_cant": "monotonicity under rounding is a statement about all pairs of floats", "anchors": ["differt2d/logic.py:greater", "differt2d/logic.py:less", "differt2d/logic.py:is_true", "differt2d/logic.py:is_false"]}
{"id": "C73", "title": "Negation and De Morgan in float32", "statement": "Both De Morgan laws hold exactly for all floats in both modes; negating twice is exact on [1/2,1] and within 2^-25 on [0,1], may lose small values entirely, and negating three times equals negating once.", "quantifier": "all float32 truth values", "why_tests_cant": "needs every float", "anchors": ["differt2d/logic.py:logical_not", "differt2d/logic.py:logical_or", "differt2d/logic.py:logical_and"]}
{"id": "C74", "title": "The float32 validity score is a number in [0, 1], never NaN", "statement": "Path.is_valid returns a boolean or a float in [0,1] for all coordinates, losses, tolerances, slopes (NaN and infinities included), and exactly 0/False for a path whose loss is NaN or whose interaction point with a wall is NaN.", "quantifier": "all paths, objects, candidates, tolerances and activation parameters in float32", "why_tests_cant": "NaN and overflow can appear at any depth of the computation", "anchors": ["differt2d/geometry.py:Path.is_valid", "differt2d/geometry.py:Path.on_objects", "differt2d/geometry.py:Path.intersects_with_objects"]}
{"id": "C75", "title": "Float32 lengths, powers and accumulated values are never NaN nor negative, and are accurate", "statement": "For finite points the float32 path length is not NaN, not negative and at least each of its legs, in whatever order the sum is done; received_power is between 0 and the rounded inverse of the squared height; accumulating valid*power never gives NaN and never decreases. They are accurate: a path of n <= 500 legs and exact length l <= 2^60 has its length computed within 2^-24 ((n+6) l + 4 n) of l, in any order of summation; its power, for a coefficient c in [0,1], a height h in [2^-8, 2^20], n <= 256 legs and l <= 2^50, within 2^-22 (n + 4 + 2n/h) / (h^2 + l^2) of c^(n-1) / (h^2 + l^2); and the value accumulated over n <= 1000 paths within 2^-24 (n+1) of the sum of the products, relatively, plus n 2^-149 (within 2^-24 n with approximation off).", "quantifier": "all finite float32 points, heights, coefficients, all summation orders", "why_tests_cant": "overflow and summation order depend on the platform", "anchors": ["differt2d/geometry.py:path_length", "differt2d/utils.py:received_power", "differt2d/scene.py:Scene.accumulate_over_paths"]}
{"id": "C76", "title": "Accuracy of the float32 smoothed comparison", "statement": "For finite operands whose difference does not overflow and positive finite alpha, the float32 smoothed comparison is within 2^-22 of the exact real value; if the difference overflows it may be off by more than 0.1.", "quantifier": "all float32 operands and slopes", "why_tests_cant": "an error bound over all floats", "anchors": ["differt2d/logic.py:greater", "differt2d/logic.py:hard_sigmoid"]}
{"id": "C77", "title": "segments_intersect in float32 is right up to rounding, and on grid coordinates", "statement": "For end points on a common grid (integers up to 1024 in absolute value times 2^e for one e between -74 and 51), parallel segments are detected exactly, a crossing within the tolerance is always found and a reported crossing exists up to 2^-22; off the grid a proper crossing may be missed because the determinant rounds to 0. For any other coordinates (of ordinary size, 2^-50 to 2^50): if the two segments span at least the fraction s >= 1/1024 of the square of their size L, or lie along the same axis, or one is well off the line of the other, then a crossing within the tolerance less 2^-18/s is found, and a reported crossing exists within the tolerance plus 2^-18/s.", "quantifier": "all quadruples of points of a grid, all scales 2^e with -74 <= e <= 51, all tolerances in [0,1]; all float32 coordinates whose segments are not nearly parallel", "why_tests_cant": "over 10^26 quadruples of points", "anchors": ["differt2d/geometry.py:segments_intersect"]}
{"id": "C78", "title": "A converged FermatPath is the image path", "statement": "The function FermatPath minimises is convex in the unknowns for any objects, so every local minimum is global; for walls in general position with true reflections the image path is among its candidates and minimises it up to 2(n+1)sqrt(2)eps; so whatever the optimiser, key and number of trials, if it converges to a local minimum then the FermatPath visits the walls and is as short as the ImagePath up to that bound, and without the eps perturbation it is the ImagePath, with the same loss. Plain gradient descent (optax.sgd) does converge: if every polyline through the wall lines has legs of length at least d (with a margin sqrt(2) eps), the walls have length at most D, and 4 D^2 eta <= d, then from any start in the unit box and with any key and number of trials the path found after n steps is longer than any other by at most (squared distance from the start)/(2 eta n); so for small enough eps enough steps bring every point within any given distance of the image path, uniformly in the key, and for eps = 0 the path, its loss and its smoothed validity tend to those of the image path. With one wall and both nodes on the same side all small enough learning rates qualify.", "quantifier": "all objects, walls, nodes, optimisers, random generators, perturbations eps >= 0, learning rates and numbers of steps", "why_tests_cant": "quantifies over all parameter vectors and all optimisers", "anchors": ["differt2d/geometry.py:FermatPath.from_tx_objects_rx", "differt2d/geometry.py:ImagePath.from_tx_objects_rx", "differt2d/optimize.py:minimize_many_random_uniform", "differt2d/optimize.py:minimize"]}
{"id": "C79", "title": "MinPath minimises the reflection error, but reports a stale loss", "statement": "The function MinPath minimises is non-negative on walls, zero at the image path (general position, true reflections), and zero elsewhere only at degenerate paths; FermatPath's reported loss is the loss of the points it returns, MinPath's is the loss of the points one optimiser step earlier, so that a MinPath may be declared valid although its own points break the reflection law.", "quantifier": "all walls, nodes, parameter vectors, optimisers", "why_tests_cant": "quantifies over all parameter vectors and all optimisers", "anchors": ["differt2d/geometry.py:MinPath.from_tx_objects_rx", "differt2d/geometry.py:FermatPath.from_tx_objects_rx", "differt2d/optimize.py:minimize"]}
{"id": "C80", "title": "Reverse mode reports the derivative of the traced program", "statement": "For any program made of the traced primitives (arithmetic, square root, logistic, min, max, where): if no primitive applied to something that varies has an infinite slope - even in the branch of a where that is not selected - the reported gradient is finite; if moreover the program has no kink or jump at the point, the reported gradient is the gradient of the computed function, which is unique; an infinite slope in an unselected branch (0/0 behind a where) makes the gradient NaN.", "quantifier": "all programs over these primitives, all points, all differentiable curves through the point", "why_tests_cant": "quantifies over all programs and points; finite differences only sample", "anchors": ["differt2d/optimize.py:minimize", "differt2d/scene.py:Scene.accumulate_on_receivers_grid_over_paths"]}
{"id": "C81", "title": "The gradient of path_length is right except at one step", "statement": "The gradient of path_length with respect to all the coordinates is finite and right unless some step equals (-eps, -eps); repeated points are fine because of the perturbation; at a step (-eps, -eps) the gradient is NaN.", "quantifier": "all numbers of points, all positions, all eps", "why_tests_cant": "all positions, including the only singular one", "anchors": ["differt2d/geometry.py:path_length"]}
{"id": "C82", "title": "normalize and evaluate_cartesian have NaN gradients on repeated points only", "statement": "The gradients of normalize, of Wall.evaluate_cartesian and of RIS.evaluate_cartesian are finite and right when no vector to normalise is zero, and NaN otherwise (the guard against division by zero does not protect the gradient).", "quantifier": "all walls, all points", "why_tests_cant": "all positions", "anchors": ["differt2d/geometry.py:normalize", "differt2d/geometry.py:Wall.evaluate_cartesian", "differt2d/geometry.py:RIS.evaluate_cartesian"]}
{"id": "C83", "title": "The gradient of the smoothed segments_intersect is always finite", "statement": "The gradient of the smoothed segments_intersect with respect to the four points is finite everywhere, parallel and degenerate segments included; it is zero and right away from the ends of the segments; it is right in a transition where a single comparison decides.", "quantifier": "all four points, tolerances, slopes, both activations (finiteness)", "why_tests_cant": "all positions, including parallel segments", "anchors": ["differt2d/geometry.py:segments_intersect", "differt2d/logic.py:activation"]}
{"id": "C84", "title": "Gradients of the steps of the image method", "statement": "The gradients of cartesian_to_parametric and image_of are right everywhere (zero-length walls included); the gradient of the backward step is right unless the line to the image is parallel to the wall, where the step is the identity but its gradient is NaN.", "quantifier": "all walls and points", "why_tests_cant": "all positions", "anchors": ["differt2d/geometry.py:Wall.cartesian_to_parametric", "differt2d/geometry.py:Wall.image_of", "differt2d/geometry.py:ImagePath.from_tx_objects_rx"]}
{"id": "C85", "title": "Gradients of the accumulated power are finite exactly in general position", "statement": "For the smoothed accumulation of received_power over image paths: the gradient with respect to the receiver (or transmitter) is finite if and only if every candidate is in general position (no line to an image parallel to its wall, no zero step, no step (-eps,-eps)), whether the candidate is valid or not; it is the gradient of the accumulated value, for both activations, away from the transitions of the comparisons and also inside them, provided that no comparison is at a corner of the hard sigmoid and no two varying comparisons of one candidate have the same margin; where a candidate is not in general position the gradient is NaN although the value can be smooth; a zero-length wall among the candidates makes it NaN everywhere.", "quantifier": "all scenes of walls, candidate lists, positions, coefficients, tolerances, patches, slopes", "why_tests_cant": "quantifies over all scenes and positions", "anchors": ["differt2d/scene.py:Scene.accumulate_on_receivers_grid_over_paths", "differt2d/scene.py:Scene.accumulate_on_transmitters_grid_over_paths", "differt2d/utils.py:received_power", "differt2d/geometry.py:Path.is_valid"]}
{"id": "C86", "title": "Smoothed validity is capped by the loss test", "statement": "With approximation on, the smoothed validity of a path is a number between 0 and the activation at tol - loss, whatever the scene; with the default tolerance, slope and activation it is at most 2/3, and it is exactly 2/3 for the direct path in free space, which the exact mode declares valid; so the accumulated value is at most 2/3 of the plain sum of the function over the candidates.", "quantifier": "all scenes, paths, candidates, slopes, tolerances, patches, non-negative functions", "why_tests_cant": "a bound over all scenes and paths", "anchors": ["differt2d/geometry.py:Path.is_valid", "differt2d/logic.py:less", "differt2d/scene.py:Scene.accumulate_over_paths"]}
{"id": "C87", "title": "Gradients with approximation off", "statement": "With approx=False, the gradient of the accumulated received_power over image paths with respect to the receiver (or transmitter) is finite if and only if the path length of every candidate, valid or not, has a slope (no line to an image parallel to its wall, no step (-eps,-eps)); then it is the sum of the gradients of the powers of the valid candidates; around positions where no validity changes it is the gradient of the accumulated value, and a change of validity is never seen by it; one invalid candidate can make it NaN although the accumulated value is smooth there.", "quantifier": "all scenes of walls, candidate lists, positions, coefficients, tolerances, patches", "why_tests_cant": "quantifies over all scenes and positions", "anchors": ["differt2d/scene.py:Scene.accumulate_on_receivers_grid_over_paths", "differt2d/scene.py:Scene.accumulate_on_transmitters_grid_over_paths", "differt2d/utils.py:received_power", "differt2d/geometry.py:Path.is_valid"]}
{"id": "C88", "title": "Logic functions on arrays", "statement": "On arrays of one shape (and, without jit, Python numbers) logical_or, logical_and, logical_not, the four comparisons, the sigmoids, is_true and is_false return an array of that shape whose elements are the results on the elements; there is no broadcasting: with jit, arrays of different shapes, and a Python number with an array that has axes, raise TypeCheckError. logical_all and logical_any with axis=0 combine the arguments element by element; the default axis works on arguments without axes only and raises on arrays although documented to flatten them; another axis is accepted exactly when all axes before it have as many elements as there are arguments; out-of-range axes raise ValueError, tuples of other than one axis raise, arguments of different shapes raise, and with no argument the exact mode gives True / False and the approximate mode raises ValueError.", "quantifier": "all arrays of all shapes and dtypes, all axes, all argument lists", "why_tests_cant": "shapes, axes and numbers of arguments are unbounded", "anchors": ["differt2d/logic.py:logical_or", "differt2d/logic.py:logical_and", "differt2d/logic.py:greater", "differt2d/logic.py:less", "differt2d/logic.py:logical_all", "differt2d/logic.py:logical_any", "differt2d/logic.py:is_true", "differt2d/_typing.py:ArrayLikeFloat"]}
{"id": "C89", "title": "Float32 exact validity is right up to rounding, and on grid coordinates", "statement": "With approximation off, no patch, and every coordinate of the path, of the objects and of the interacting objects an integer of at most 1024 times one power of two, is_valid in float32 always answers; if it answers True then every intermediate point projects onto its object, the loss is below tol and no leg crosses a segment it does not touch within the relative tolerance of segments_intersect; and it answers True whenever the first two hold and no leg crosses within that tolerance plus 2^-22. For any other coordinates: if every leg is clear cut (in the sense of C77, with fraction s) with each segment it does not touch and the interacting segments are not short compared with the distance to the point, is_valid answers; True only if each point projects onto its object up to the fraction m = 2^-18/s of it, the loss is below tol and no leg crosses within the tolerance less m; and True whenever each point projects with m to spare, the loss is below tol and no leg crosses within the tolerance plus m.", "quantifier": "all paths, all lists of walls, RIS and vertices, all candidates, all losses and tolerances, all grids from 2^-74 to 2^51; all well conditioned float32 scenes and paths off the grids", "why_tests_cant": "the rounding of every product and quotient must be right for every scene; tests sample a few", "anchors": ["differt2d/geometry.py:Path.is_valid", "differt2d/geometry.py:Path.on_objects", "differt2d/geometry.py:Path.intersects_with_objects", "differt2d/geometry.py:Wall.cartesian_to_parametric", "differt2d/geometry.py:segments_intersect"]}
{"id": "C90", "title": "The float32 smoothed validity score never contradicts the exact test", "statement": "For every float32 scene, path, loss, tolerance and patch (infinities and NaN included) and every finite positive slope, a smoothed validity score above 0.5 is only given to a path that the exact test accepts, and a score strictly between 0 and 0.5 only to one it rejects. If all coordinates are at most 2^50 in magnitude, the patch at most 1 and the loss not NaN, a score of 0 also means that the exact test rejects the path. Beyond, an overflow can give a score of 0 to a path that the exact test accepts.", "quantifier": "all float32 inputs", "why_tests_cant": "agreement must hold through every rounding, overflow and NaN, for every list of objects", "anchors": ["differt2d/geometry.py:Path.is_valid", "differt2d/logic.py:hard_sigmoid", "differt2d/logic.py:logical_and", "differt2d/logic.py:logical_not"]}
{"id": "C91", "title": "Changing the unit of length", "statement": "Multiplying all coordinates of a scene by a positive factor k (around any point, and together with any translation, rotation or, without RIS, mirroring) multiplies the points of every Path, ImagePath and MinPath by k and leaves its loss, on_objects, intersects_with_objects and is_valid (exact and smoothed, every tolerance and patch), and the list of valid paths, unchanged; without the epsilon of path_length, lengths are multiplied by k and the accumulated received power, with the height in the same unit, by 1/k^2; with it they are not.", "quantifier": "all scenes, all similarities of the plane, all orders, all tolerances", "why_tests_cant": "every factor, scene and order; a hidden absolute tolerance would show only at some scale", "anchors": ["differt2d/geometry.py:ImagePath.from_tx_objects_rx", "differt2d/geometry.py:Path.is_valid", "differt2d/geometry.py:Wall.intersects_cartesian", "differt2d/geometry.py:path_length", "differt2d/scene.py:Scene.accumulate_over_paths", "differt2d/utils.py:received_power"]}
{"id": "C92", "title": "How a scene is written down does not matter", "statement": "For Path and ImagePath, listing the objects of a scene in another order enumerates the same paths with the same objects and validity (possibly in another order), and drawing any of the walls from its other end changes neither the paths nor their order, validity or exceptions; hence accumulate_over_paths (also with reduce_all) and the values on receiver and transmitter grids are the same for every order of the objects and every direction of the walls, exact or smoothed. The direction of a RIS does matter.", "quantifier": "all scenes, all permutations of the objects, all choices of wall directions, all orders, filters and accumulated functions that do not look at the direction of walls", "why_tests_cant": "every permutation of every scene; a dependence on an index or on the sign of a normal would show only for some listings", "anchors": ["differt2d/scene.py:Scene.all_paths", "differt2d/scene.py:Scene.accumulate_over_paths", "differt2d/scene.py:Scene.accumulate_on_receivers_grid_over_paths", "differt2d/geometry.py:Path.intersects_with_objects", "differt2d/geometry.py:Wall.image_of", "differt2d/geometry.py:RIS.evaluate_cartesian"]}
{"id": "C93", "title": "Reciprocity: exchanging transmitters and receivers", "statement": "When the image method on walls succeeds (loss below one), computing the path from the receiver to the transmitter on the reversed walls gives the same path backwards with the same loss, and it succeeds one way iff it succeeds the other way - with no assumption on the position of the walls or points. Hence for Path, and for ImagePath on walls (exact validity with a tolerance of at most 1, or smoothed by a steep hard sigmoid such as the default), exchanging the transmitters and receivers of a scene gives the same valid paths travelled backwards, the same accumulated value for each pair, and a map of transmitter positions that equals the map of receiver positions, for every accumulated function whose value does not depend on the direction of travel. The received power is such a function only without the step that Path.length adds, and a RIS works one way only.", "quantifier": "all wall scenes, transmitters and receivers, orders, filters, exact and smoothed settings, grids, accumulated functions", "why_tests_cant": "an asymmetry between the two ends (in the obstruction test, in the degenerate guard of the image method, in the pairing of grid axes) would show only for some geometries; every scene and every pair must agree", "anchors": ["differt2d/geometry.py:ImagePath.from_tx_objects_rx", "differt2d/geometry.py:Path.is_valid", "differt2d/geometry.py:path_length", "differt2d/scene.py:Scene.all_valid_paths", "differt2d/scene.py:Scene.accumulate_over_paths", "differt2d/scene.py:Scene.accumulate_on_transmitters_grid_over_paths", "differt2d/utils.py:received_power"]}
{"id": "C94", "title": "Nothing gets through the walls of a closed room", "statement": "In a scene whose walls include those of a closed convex room (drawn in any direction, among any other walls), every valid ImagePath that starts or ends in the room stays in it: all its points are in the room, for any number of interactions with any walls, exact or smoothed. For every path class (solvers and random keys included) and any objects, a leg of a valid path that neither starts nor ends on a wall of the room does not go through its walls, so a valid path that interacts with none of them, such as a diffraction path, is all inside or all outside. With exact validity the accumulated value of ImagePath is 0 for a transmitter inside and a receiver outside (or conversely), and a coverage map is 0 on the other side of the walls. With smoothed validity (alpha > 0, tol <= 0.995) the validity of such a path is at most the activation at -0.005, that is max(0, 1/2 - alpha/1200) for the hard sigmoid and 1/(1+exp(alpha/200)) for the sigmoid, and accumulated values and map entries are at most that times the number of candidates times the largest |f|: nothing gets through the hard sigmoid for alpha >= 600, while with the default alpha of 100 a receiver 1 mm outside of a 1 m room gets more than 0.38 of the line of sight. The outer walls of every built-in scene, and the obstacle of square_scene_with_obstacle, are such rooms: with the default nodes and a ratio between 0.2 and 0.6 its receiver is inside the obstacle and receives nothing. A gap is enough to let paths through, as in basic_scene.", "quantifier": "all scenes containing a closed convex room, all node positions, orders and candidates, grids, accumulated functions, exact and smoothed settings; all path classes, keys and optimisers for the statement about legs", "why_tests_cant": "a leak needs a particular chain of reflections, corner or grazing incidence; absence of leaks is a statement about every chain of every length", "anchors": ["differt2d/geometry.py:ImagePath.from_tx_objects_rx", "differt2d/geometry.py:Path.is_valid", "differt2d/geometry.py:Path.intersects_with_objects", "differt2d/scene.py:Scene.all_valid_paths", "differt2d/scene.py:Scene.accumulate_over_paths", "differt2d/scene.py:Scene.accumulate_on_receivers_grid_over_paths", "differt2d/scene.py:Scene.square_scene_with_obstacle"]}
{"id": "C95", "title": "Supplying or naming a scene", "statement": "Scene.from_geojson gives the same scene (at the same locations) or the same exception for a text and for any object that reads as this text, at any depth; such an object is read exactly once, so that a second call on an exhausted file fails; other types raise NotImplementedError and invalid JSON is reported unchanged. Scene.from_scene_name accepts for each of the four names any combination of the keywords tx_coords and rx_coords and places the nodes there or at the defaults of that scene; ratio is accepted by keyword or first position by exactly the two scenes that have one and is a TypeError for the others; square_scene_with_obstacle takes nodes by keyword only; a name that is not an attribute of the class raises AttributeError.", "quantifier": "all texts, parsers, nestings of readable objects, node positions, ratios and combinations of arguments", "why_tests_cant": "the tests call each form once with default arguments", "anchors": ["differt2d/scene.py:Scene.from_geojson", "differt2d/scene.py:Readable", "differt2d/scene.py:Scene.from_scene_name", "differt2d/scene.py:SceneName", "differt2d/scene.py:Scene.square_scene_with_obstacle"]}
{"id": "C96", "title": "ImagePath in float32: exact images along the axes, bounded errors on oblique walls", "statement": "In single precision, for walls along the axes and nodes on a common grid of positions (integers up to N <= 1024 times a power of two), the images of the transmitter are exact for any mixed sequence of horizontal and vertical walls; with parallel walls every computed reflection point is exactly on the line of its wall and within n/1024 of a grid step of the exact point along it, the loss is at most n^3 * 5/32768 (below the default tolerance for up to 4 reflections), so that exact is_valid never rejects the path for its loss, accepts each point that is n/1024 of a step inside its wall and rejects each one that is 1/64 of a step outside. With oblique walls images are not exact, and with perpendicular walls reflection points may be off their walls; but the errors are bounded: for walls in any direction, with any coordinates in a square of size L, each wall at least L/12 long, the k-th image (from 0) is within 2^-17 (k+1)(k+2) L of the exact one, for up to 256 walls; and for one reflection on a wall at least tau L long (1/12 <= tau <= 1), between nodes on the same side at least tau L away from its line, the computed point is within 2^-15 L / tau of the exact one, the loss is at most 10^-7 / tau^4 (below the default tolerance), and the exact validity test accepts or rejects the point rightly up to the fraction 2^-14 / tau^2 of the wall and, in a scene of that size whose walls span with each leg at least the fraction s >= 1/128 of L^2 or are well off it, decides the obstruction of the exact path rightly up to the fraction 2^-11 / (tau s) of the legs and walls. For a wall at least L/12 long between nodes on opposite sides, at least L/12 away from its line and at distances that differ by at least L/6, the loss is above 1 and the reflection is rejected. Hence, in a scene of up to 999 walls of both kinds, if the direct path and each single reflection on a wall of the first kind are clearly valid or clearly not (up to these fractions), the accumulated power of a pair of nodes is that of exactly the valid paths, up to a relative error 2^-14 / tau^2 + 2^-21 (6 + 4/h) + 2^-23 N for N paths, antennas at height h and a reflection coefficient in [0, 1] (relative to the power without reflection losses); and it always has a value.", "quantifier": "all grid positions of the nodes and walls, all scales 2^e (-60 <= e <= 50), all numbers of reflections within 4 N^2 (n+1) <= 2^24; and, for the error bounds on oblique walls, all binary32 coordinates, all directions and lengths of walls within those conditions, 2^-50 <= L <= 2^50 (512 L <= 2^50 for several images)", "why_tests_cant": "rounding errors depend on every bit of every coordinate; the error bound is a statement about all of them", "anchors": ["differt2d/geometry.py:ImagePath.from_tx_objects_rx", "differt2d/geometry.py:Wall.image_of", "differt2d/geometry.py:Wall.normal", "differt2d/geometry.py:Wall.evaluate_cartesian", "differt2d/geometry.py:normalize", "differt2d/geometry.py:Path.is_valid", "differt2d/scene.py:Scene.accumulate_over_paths", "differt2d/utils.py:received_power"]}
{"id": "C97", "title": "The default optimiser, and NaN in the solvers", "statement": "Without an explicit optimiser, each step of minimize moves each coordinate by 0.1 times the recent average of its gradient (weights 0.9^age) over 1e-8 plus the root of the recent average of its square (weights 0.999^age). Hence whatever the objective a coordinate travels at most 0.728 per step (so FermatPath and MinPath only ever consider points within 1 + 0.728*steps wall lengths), the first step is shorter than 0.1 and against the gradient, a stationary start is never left, a constant gradient gives equal steps, a coordinate whose gradient keeps its sign moves one way; but the loss need not decrease. Without any keyword argument minimize does 100 steps, minimize_many_random_uniform returns the best of ten such runs, started at draws made with the ten keys split off its key, and FermatPath and MinPath do a single run, started at a draw made with their key, so that their points are within 73.8 wall lengths. A NaN in the gradient of a coordinate makes that coordinate NaN for ever, and minimize_many_random_uniform then returns a trial with NaN loss, even if all the other trials succeed: the best trial is returned exactly when no loss is NaN.", "quantifier": "all objectives, gradients (NaN included), starting points, numbers of steps, keys and trial counts", "why_tests_cant": "the trajectory depends on an arbitrary objective and the bound must hold for every number of steps", "anchors": ["differt2d/optimize.py:minimize", "differt2d/optimize.py:minimize_random_uniform", "differt2d/optimize.py:minimize_many_random_uniform"]}
{"id": "C98", "title": "The smoothed validity measures the margin, and tends to the exact validity as alpha grows", "statement": "For a path and approx=True with a shipped activation and alpha > 0: is_valid is at least activation(m) exactly when the path meets each of its requirements by at least m (loss below tol by m, every interaction point at a relative position between m and 1-m on its wall, every segment outside of the window of every wall it does not touch by m); negative m allows violations up to -m. So a path that meets all requirements by m > 0, or violates one by more than m, gets a value within 1/(alpha m) of the exact one (equal to it for hard_sigmoid once alpha m >= 3); a path with no margin gets 1/2 for every alpha; a larger alpha never moves a value back towards 1/2; and accumulated values whose paths are all settled by m are within sum|f|/(alpha m) of those of approx=False and converge to them.", "quantifier": "every path, list of objects, candidate, tol, patch, alpha > 0, both shipped activations, margin m of either sign, path class, key, accumulated function and list of candidates", "why_tests_cant": "A limit in alpha and an equivalence over every margin, path and scene: tests sample a few values of alpha.", "anchors": ["differt2d/logic.py: activation, hard_sigmoid, sigmoid, logical_and, logical_or, logical_not, logical_all, less, greater_equal, less_equal", "differt2d/geometry.py: Path.is_valid, Path.on_objects, Path.intersects_with_objects, segments_intersect, Wall.contains_parametric, Wall.intersects_cartesian", "differt2d/scene.py: Scene.accumulate_on_receivers_grid_over_paths, accumulate_on_transmitters_grid_over_paths (facc)"]}
{"id": "C99", "title": "Accumulated values are additive in the orders, the nodes and the function", "statement": "For the path classes that need no key: the total of accumulate_over_paths(reduce_all=True) for the orders min_order..max_order is the sum of the totals for min_order..m and m+1..max_order, hence of the totals of the single orders (order=k), and the same holds entry by entry for the maps over grids of receivers or transmitters. With more transmitters (or receivers), the totals add up, and the per-pair results of the whole list of transmitters are those of its parts one after the other. The total and the maps are additive in a finite-valued function, and the total is homogeneous.", "quantifier": "every scene, split of the orders or of the nodes, object filter, validity arguments, grid shape, finite-valued functions and factor", "why_tests_cant": "An algebraic law over all scenes, splits and functions; a test can only add up a few examples.", "anchors": ["differt2d/scene.py: all_path_candidates, Scene.all_path_candidates, Scene.all_paths, Scene.accumulate_over_paths, Scene.accumulate_on_receivers_grid_over_paths, Scene.accumulate_on_transmitters_grid_over_paths"]}
