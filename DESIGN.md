# Formal model of DiffeRT2d in Rocq (Coq 8.16.1)

Source modelled: `/repo/differt2d/*.py` (logic, geometry, abc, optimize, scene,
utils, defaults). Only text was read; nothing was run.

## 1. Layout

Model files (definitions only, each citing file and lines of /repo):

| file | models |
|---|---|
| `Base.v` | Python exceptions as values, real comparisons as booleans, IEEE specials (`xreal`) |
| `LogicM.v` | `logic.py` (activations, connectives, comparisons, is_true/false) |
| `GeometryM.v` | vectors, `segments_intersect`, `path_length`, `normalize`, `closest_point`, Point/Vertex/Ray/Wall/RIS, `rotate`, stack/unstack, bounding boxes, `abc.Plottable` |
| `ArrayM.v` | the functions of `logic.py` on whole arrays: shapes, dtypes, `axis`, run-time type checks |
| `OptimizeM.v` | `optimize.py` (objective, gradient, optimiser, PRNG are parameters) |
| `PathM.v` | `Path`, `ImagePath`, `FermatPath`, `MinPath`, validity |
| `SwitchM.v` | `ENABLE_APPROX`, `set_approx`, `enable_approx`, the `RLock`, threads |
| `JitM.v` | jit caching of functions that read `ENABLE_APPROX` |
| `CandidatesM.v` | `differt_core` graphs as used by `all_path_candidates` |
| `SceneM.v` | `PyTreeDict`, `Scene` updates, enumeration, accumulation, grids |
| `BuildM.v` | `from_geojson`, `random_uniform_scene`, built-in scenes |
| `SourceM.v` | `from_geojson` on text, files and other values; `from_scene_name` and the binding of its arguments |
| `UtilsM.v` | `received_power` |
| `FloatM.v` | the logic functions, `segments_intersect`, validity, `path_length`, `received_power` and the accumulation again, on IEEE binary32 numbers (Flocq) |
| `FloatImageM.v` | `normalize`, `Wall.normal`, `image_of`, `evaluate_cartesian` and `ImagePath` again, on binary32 numbers |
| `AdM.v` | the functions again as traced programs, and JAX's reverse mode on them |
| `AdamM.v` | `optax.adam` with its defaults, which `optimize.py:83` uses when no optimiser is given (the code of `optax` is not in /repo: its documented update rule is trusted), and the solvers again with infinities and NaN |
| `PlotM.v` | the `plot` methods: the calls made on the matplotlib axes (an oracle) |

Specification files (`Spec*.v`) state what the properties mean without using the
model's helpers. Proof files (`*P.v`) prove lemmas. Property files
(`Properties*.v`) contain only the final theorems, each closed by `exact lemma`,
with `Print Assumptions` under it, plus non-vacuity `Example`s.

## 2. Modelling decisions

* **Numbers.** Coordinates, losses, parameters are exact real numbers (`R`).
  Rounding of float32 is modelled only in the single-precision chapter (`FloatM.v`,
  C71-C77, C89, C96). Elsewhere IEEE special values are modelled where
  the code can create them: `xreal = Fin r | PInf | NInf | NaN`, with NaN
  propagation through min/max/sub/mul as in `jnp`. Everything that is a truth
  value or an accumulated value is an `xreal`.
* **Truth values.** `truthy = TB bool | TF xreal`, so that the same functions can
  be run in exact and smoothed mode and mixtures follow the `jnp` promotion rules.
* **Switch.** Functions take the current `ENABLE_APPROX` (`g : bool`) and
  `approx : option bool`, and resolve it exactly where the code does.
* **Errors.** Python exceptions are values (`Err e`), generators that raise are a
  list of yielded items plus an optional final exception.
* **Oracles** (function parameters of definitions, universally quantified in the
  theorems): PRNG (`split`, `uniform`), gradients, the optimiser (except in C97, about the default one), user callables
  (`fun`, `filter_objects`, custom activation).
* **Not modelled:** what matplotlib does with the calls, jaxtyping shape/dtype checks except where they are
  the observable behaviour (is_true on floats, GeoJSON positions of wrong size),
  float rounding outside `FloatM.v`, autodiff outside `AdM.v` (in `OptimizeM.v` the gradient is an oracle), XLA,
  json parsing of text (`json.loads` is a parameter of the model, C95; elsewhere the parsed value is the input).
  Batches and reductions along axes are modelled in `ArrayM.v` (C88), scalars elsewhere.

## 3. Properties

Every property in `properties.jsonl` is modelled; the plan for each follows.

* C01-C06 logic laws: case analysis on `xreal`, real arithmetic, `exp`
  monotonicity; C05's limit is an explicit epsilon-alpha statement.
* C07: each function with `Some b` is syntactically independent of `g`, proved
  through every layer up to `is_valid`.
* C08: big-step interpreter for `with`/`set_approx`/`raise`/reads; induction on
  the program.
* C09, C10: small-step interleaving semantics with an `RLock`; invariant over all
  schedules relating each thread's observations to its sequential run; witness
  schedule by computation; progress for deadlock freedom.
* C11: state machine over all histories, invariant on the cache.
* C12-C15: algebra (Cramer), boundary analysis.
* C16-C24: real algebra; triangle inequality; C24 also: a solver path through
  vertices has no unknown, so it is computed; scene level by the characterisation of
  validity (C38, C40) and the enumeration (C45, C51); own walls by solving the
  crossing. C25: witness and exact
  characterisation of when `rotate` is right.
* C26-C28: induction over lists.
* C29, C30: induction over the object list with the parameter offset.
* C31-C35: induction over the wall list; unfolding argument for minimality and
  reciprocity.
* C36-C42: folds against declarative quantifiers.
* C43, C44: induction over steps / trials.
* C45-C47: enumeration soundness, completeness, NoDup, counting by induction.
* C48-C50: association-list laws; induction over operation histories.
* C51-C55: products, grouping, sums.
* C56-C59: index arithmetic, JSON inductive type with errors, concrete scenes.
* C60-C62: real arithmetic, rigid-motion equivariance, sums.
* C63, C64: soundness (a valid image path is physical: reflection law, points on
  the segments, no obstruction, shortest) and completeness (every specular
  polyline is the image path) of the image method, by the unfolding argument; at the
  scene level (`SpecComplete.v`, `CompleteP.v`) both together characterise what
  `all_valid_paths` yields, degenerate configurations included (below loss 1 a path is in general
  position or a single point, as in C93).
* C65-C69: continuity. Convergence of sequences (`Un_cv` of the standard library)
  is lifted to points, objects, paths, truth values and scenes (`SpecCont.v`);
  every function of the pipeline is shown to preserve it, up to
  `accumulate_over_paths`; counterexamples show that the excluded
  configurations really are discontinuities.
* C70: plotting as a trace of calls on axes that are an oracle; induction over the
  nodes and objects.
* C71-C77: single precision. `FloatM.v` repeats the logic, the segment test, the
  validity test, the lengths and the power on Flocq's `binary_float 24 128`; each
  operation is related to the rounding of its real value (`FloatP.v`), then
  monotonicity of rounding, Sterbenz' lemma, error bounds and exactness on grids
  give the theorems. Sums may be done in any order and grouping (a relation); their
  accuracy (`SpecAccuracy.v`, `FloatLenP.v`, `PropertiesAccuracy.v`) is by induction on
  that relation, `(1 + 2^-24)^(n-1)` at worst.
* C78, C79: the objectives of the solver-based paths (`SpecSolver.v`: convex, local
  and global minimum, converged). Convexity is the triangle inequality on affine
  parametrisations; uniqueness of the shortest path is the equality case of the
  triangle inequality, followed backwards along the chain of images. Convergence of
  gradient descent (`SpecDescent.v`: gradient as first-order approximation, `optax.sgd`,
  `step_fits`): the remainder of the first-order expansion of the length is a sum over the
  legs, non-negative (convexity) and at most quadratic (legs bounded below), so each step
  decreases the objective; the remainder also bounds from above the angles between the legs
  of the iterate and those of the image path, hence the distance of the points.
* C80-C85: reverse mode on traced programs (`AdM.v`; `SpecAd.v` defines gradient,
  `safe`, `regular`, and, in plane geometry only, the positions and transitions;
  `AdPosP.v` proves that they are those the proofs use, `AdPos.v`). Soundness by induction on the program,
  along any differentiable curve; `facc_traced` proves that the traced program
  computes what `facc` of `SceneM.v` computes; NaN results by following a NaN
  cotangent down to the variable. In the transitions (`SpecTrans.v`: the margin of each
  comparison of the validity test), every node of the tree of minima and maxima is 0 or 1
  with a zero gradient, or has the value of one varying comparison; operands that are
  equal are therefore of the first kind and have equal gradients.
* C86: the smoothed conjunction is a minimum, so it is below each of its terms; the
  term of the loss is the activation at `tol - loss` (`SpecCap.v`); losses of image
  paths are sums of squares.
* C87: the traced program of C85 with the exact validity as a constant factor
  (`exact_validity` in `SpecAd.v` ties the factor to `is_valid`); finiteness follows
  the cotangent, which is zero times NaN for an invalid candidate.
* C88: arrays are a shape and a function from indices (`ArrayM.v`), the run-time checks
  of jaxtyping are part of the calls; `SpecArray.v` says what element-wise means; a
  reduction along an axis is proved to run over the lines of the stacked array.
* C89: on a grid the differences and products are exact, the quotient of the projection test
  is rounded to the right side of 0 and 1 (`FloatGridP.v`); the specification (`SpecGrid.v`)
  is about points of the plane only. Off the grids (`SpecAnywhere.v`, `FloatAnyP.v`) each area
  computed from the coordinates is known up to 9 units of `L^2 2^-24`; dividing by a determinant of
  at least `s L^2` leaves an error of at most `28 * 2^-24 / s`, within the margin `2^-18 / s`.
* C90: a relation between a smoothed and an exact truth value that every connective and
  comparison preserves (`FloatAgreeP.v`), and magnitudes that exclude NaN (`FloatBoundP.v`).
* C91: a similarity is a scaling of an isometry; the proofs of C61 use only the six
  equations of `MotionP.geo`, which scalings satisfy (`ScaleP.v`).
* C92: a permutation is a renumbering of the indices; candidates are mapped to candidates (C45, pigeonhole), the obstruction is a fold of a commutative operation, sums are permutation invariant. Turning a wall negates its normal and maps its parameter s to 1-s; every test is symmetric (C14). Gradients are left out: automatic differentiation of nested minima depends on their order where they tie.
* C93: below loss one either the path is in general position and C34 applies, or two of its points coincide, hence (each term of the loss is the squared difference of two unit-or-zero vectors) all of them do and the path is a single point fixed by every wall. Candidates are closed under reversal, validity is invariant (C34), a path at loss one or more is rejected either way. Sums are permutation invariant (C92).
* C94: a room is a list of walls with its points on their left; the border has no gap. Induction along the path: the first side crossed by a segment that leaves the room is a wall of the scene that obstructs it, unless the segment starts or ends on it; it does not end on it (its end is strictly outside), nor start on it (a reflection of loss below one keeps the neighbours strictly on the same side, C32). Degenerate paths of loss below one are single points (C35). From the other end by C93; smoothed by C40. Smoothed validity: a score above the activation at -0.005 means that every requirement is met up to a margin above -0.005 (C98), so no segment crosses a wall with parameters in [0, 1], and the same induction applies with a zero window.
* C95: the argument of from_geojson is an inductive type (text, readable with its successive reads, other); the parser is a parameter. from_scene_name is modelled with Python's binding of positional and keyword arguments to the signatures. Induction on the nesting, then computation on symbolic arguments.
* C96: binary32 of Flocq. The normal is exactly (0,+-1) or (+-1,0), hence images by exact grid arithmetic; one backward step: exact across the wall because the product of two grid numbers is exact, five roundings along it, contracted by the interpolation parameter, then induction from the receiver; the loss from the Lipschitz constant of normalisation and the rounding errors of the norm; containment by monotonicity of rounding. Oblique walls (FloatObliqueP): a calculus of absolute errors in units of 2^-24 times the size of the operand, normalisation being Lipschitz; the law of reflection holds exactly for the exact point, so the loss is the square of the propagated error; several images by induction, a reflection being an isometry and the distance to the next wall growing by one size at each step; the verdict on a whole scene by moving the ends of the legs within the error (FloatShiftP, Cramer's rule with perturbed determinants). The power of a scene (`FloatSceneM.v`, `SpecScene32.v`, `FloatSceneP.v`, `PropertiesScene32.v`): the candidates up to one reflection are the empty one and each wall, each term has the right validity and its length moves by less than the error of its point, a quotient with a perturbed denominator, then the accuracy of sums (C75). A wall between the nodes (`FloatCrossP.v`): the computed point is on the extension of the leg, so the two normalised directions violate the law of reflection by more than 1, up to a calculus of rounding errors of order 10^-3.
* C97: the documented update of optax.adam (not in /repo) as an optimizer of the model; the moments are (1-b) times weighted sums by induction, and the bias corrections their normalisation; the bound from the invariant m^2 <= 370/7 v (a perfect square) and 1-b2^t <= (1-b1^t)^2; the same functions on extended reals with NaN; jnp.argmin takes the first NaN
* C98: `SpecSlope` states the three requirements with a margin; `SlopeP` shows that comparing the score with activation(m) distributes over the min/max tree of tests, that the activation is onto (0,1) so that margins and scores determine each other, and sums the error over the candidates.
* C99: `AddP` writes every accumulated value as a sum over pairs and candidates of one share per candidate that does not depend on the other candidates or nodes (from C51, C53, C54), then splits the sums; extended-real addition is associative and commutative, NaN included.

No property is only partially proved; none is not applicable.

## 4. Trusted base

* Coq 8.16.1 kernel (`coqc`; no `-noinit`, no `bypass_check`, no plugin of ours).
* Axioms: only those of the standard library, listed theorem by theorem in
  section 7. No axiom of our own, no `Admitted`, no functor, no module type.
* Flocq (definitions and lemmas about IEEE arithmetic; it adds no axiom).
* The reading of /repo recorded in the comments, and the assumed behaviour of
  external libraries written down in the model: `jnp` element-wise functions and
  promotion rules, `jax.lax.switch` clamping, `jax.lax.scan` (left/right folds),
  `jax.vmap` (map), `jax.random` (abstract generator), `differt_core` graphs (all
  simple-step walks, in depth-first order), `eqx.tree_at`, `eqx.filter_jit`
  caching by static arguments, `itertools.groupby/product`, `threading.RLock`,
  `contextlib.contextmanager`.

## 5. What is modelled and what is not

Modelled (every definition cites its lines): all of `logic.py`, `optimize.py`,
`utils.py`, `defaults.py`, `abc.py`, `geometry.py` and `scene.py`; the `jit` decorations only through `JitM.v`.

Simplifications, also stated at the definitions:

* real numbers instead of float32 (no rounding, no overflow) except in `FloatM.v` and `FloatImageM.v`,
  which assume IEEE operations rounded to nearest even one by one (no fused
  multiply-add, no flush to zero) in the order of the source; with explicit
  infinities and NaN where the formulas create them;
* arrays of any batch shape are replaced by scalars or lists (the functions are
  element-wise), except in `ArrayM.v`, where whole arrays and `axis` are modelled;
* in `OptimizeM.v` gradients are an abstract operator (`gradop`); in `AdM.v` they are
  computed by JAX's rules, per use of a value (no sharing), with IEEE specials but
  without rounding, and with a single zero; random numbers an abstract
  generator, the optimiser an abstract state machine, all universally quantified; `AdamM.v`
  instantiates the optimiser with the documented rule of `optax.adam` and has versions of
  the solvers in which losses and gradients can be infinite or NaN;
* jaxtyping checks are modelled only where a well-typed Python program observes
  them; `json.loads` is a parameter (C95) or replaced by the parsed value (C57);
* the wording of error messages and warnings is not modelled (only the class of
  the exception).

## 6. Behaviours found while proving (all are theorems)

* `enable_approx` restores the value read *before* taking the lock: two threads
  can leave the global switch changed for ever (C10).
* A jitted function called under one value of `ENABLE_APPROX` keeps using it
  after the switch changes; clearing the outer cache alone does not help (C11).
* `Ray.rotate` multiplies the 2x2 array of end points on the wrong side: the
  result combines the two end points instead of rotating them (C25).
* smoothed `greater_equal`/`less_equal` are 1/2, not 1, at equality (C04).
* `segments_intersect` says no for parallel segments, even overlapping ones, and
  is NaN there with slope 0 (C13); its smoothed value jumps there (C66).
* `on_objects` only tests the projection on the wall (C36); the smoothed test
  rejects every path on a zero-length wall.
* A wall just behind the receiver blocks the line of sight (relative tolerance
  0.005) (C37).
* `Path.from_tx_objects_rx` of the base class has always loss 0 (C29).
* `minimize` returns the loss *before* the last step, and raises for `steps=0`
  (C43).
* `get_object` clamps indices but mixed scenes use Python indexing, so that
  negative or too large indices disagree (C47).
* `rename_*` can merge nodes silently, and a node called `self` cannot be passed
  as a keyword (C49).
* `accumulate_over_paths` yields nothing when there is no candidate, whereas the
  grid versions yield zeros (C53, C54); when a path raises, the values of the
  pair in progress are lost.
* `valid * fun` is NaN when the function is infinite on an invalid path (C53).
* `received_power` is infinite at height 0 and length 0 (C60); the machine
  epsilon added in `path_length` breaks rotation invariance (C61); a mirrored RIS
  is another surface (C61).
* GeoJSON: a closed ring gives a zero-length wall, a `Point` feature raises
  `TypeError` (C57).

* `scene.plot(ax, color=...)` raises `TypeError` (a keyword given twice) as soon as
  the scene has a transmitter or a receiver to draw (C70).
* In float32 the smoothed comparison is exactly 1/2 for differences below
  `2^-23 / alpha`, and wrong when the difference of huge numbers overflows (C72, C76).
* In float32 two segments that properly cross at a small angle can be declared not
  to intersect, because the determinant rounds to 0 (C77).

* `MinPath` reports the loss one step before its points (it returns what `minimize`
  reports, C43): its path may be declared valid while breaking the reflection law
  (C79). `FermatPath` recomputes the loss.
* The guards against division by zero do not protect gradients: `normalize` at the
  zero vector, `evaluate_cartesian` on repeated points (C82) and the backward step of
  the image method on a line parallel to the wall (C84) have NaN gradients.
* The gradient of an accumulation is NaN as soon as one candidate, valid or not, is
  not in general position, although the value can be constant there; with a
  zero-length wall among the candidates (a closed GeoJSON ring gives one) it is NaN
  everywhere (C85).
* With the default `alpha = 100`, `tol = 0.01`, hard sigmoid, the smoothed validity
  of a perfect path is 2/3, never 1: every default approximate accumulation is at
  most two thirds of the exact sum over the same candidates (C86).
* With approximation off, an invalid candidate still poisons the gradient: zero times
  an infinite slope is NaN (C87).
* `logical_all(array)` and `logical_any(array)` raise with the documented default
  `axis=None` on arrays with axes, because the result must have the shape of the
  arguments; `greater(array, 0.0)` raises too: no broadcasting (C88).
* In float32 a wall far away (2^100) makes the smoothed obstruction test NaN by overflow and
  gives the score 0 to a direct path that the exact test accepts (C90).
* A RIS, unlike a wall, is not a segment: its angle is measured from the normal, so drawing it from its other end changes its loss (C92), from 0 to 4 in the example.
* Path.length adds its small step to the components of each segment before taking the norm, so it is not symmetric under reversal: the received power from a to b differs from that from b to a even in free space (C93), and so do, slightly, the maps of receivers and transmitters.
* The default receiver (0.5, 0.6) of square_scene_with_obstacle is inside the obstacle as soon as ratio exceeds 0.2 (the transmitter too above 0.6), so that it receives exactly nothing for every order (C94).
* With the default smoothing (alpha = 100) closed walls leak: a receiver 1 mm outside of a 1 m room sees the line of sight with validity 0.38; the leak is bounded by 0.417 per path and vanishes for alpha >= 600 (C94).
* In float32 the image of (0, 1) in the wall from (0, 0) to (1, 1) is (0.99999994, 5.96e-8), not (1, 0); on two perpendicular walls the reflection point may be off its wall by an ulp (C96).
* One trial with a NaN gradient is enough for minimize_many_random_uniform (many > 1) to return NaN: jnp.argmin prefers NaN (C97_a_nan_trial_wins, C97_best_trial_refuted_with_nan). The default optimiser may also report a loss far above the initial one (C97_descent_refuted).
* The margin of the loss test cannot exceed tol: with the defaults alpha=100 and tol=0.01 no path of non-negative loss can be settled to 1 (alpha m <= 1 < 3); alpha >= 300 is needed for hard_sigmoid to reach 1 (see C86).

## 7. `Print Assumptions` of every theorem

See the table below (generated by `tools/assumptions.py`).

<!-- ASSUMPTIONS -->
Generated by `tools/assumptions.py`. All are axioms of the standard library:

* D = `ClassicalDedekindReals.sig_forall_dec`, N = `ClassicalDedekindReals.sig_not_dec`
  and F = `FunctionalExtensionality.functional_extensionality_dep`: the construction of the reals (`Reals`).
* C = `Classical_Prop.classic`: used by lemmas of `Reals` (limits, square roots, exponential).
* "closed" = no axiom at all.

Totals: 104 × (C D F N), 14 × (D), 86 × (D F), 173 × (D F N), 41 × (closed).

| theorem | axioms |
|---|---|
| `C75_path_length_accuracy` | C D F N |
| `C75_received_power_accuracy` | C D F N |
| `C75_accumulation_accuracy` | C D F N |
| `C80_reverse_mode_computes_the_derivative` | D F N |
| `C80_gradients_are_finite_without_infinite_slopes` | D F N |
| `C80_gradients_are_unique` | D F |
| `C80_unselected_branches_count` | D F N |
| `C81_length_gradient_is_right` | D F N |
| `C81_repeated_points_are_fine` | D F N |
| `C81_length_gradient_fails_only_there` | D F N |
| `C82_normalize_gradient_is_right` | D F N |
| `C82_normalize_gradient_fails_at_zero` | D F N |
| `C82_evaluate_gradient_is_right` | D F N |
| `C82_evaluate_gradient_fails_on_repeated_points` | D F N |
| `C82_ris_evaluate_gradient_is_right` | D F N |
| `C82_ris_evaluate_gradient_fails_on_repeated_points` | D F N |
| `C83_crossing_gradient_is_always_finite` | D F N |
| `C83_crossing_gradient_is_zero_away_from_the_ends` | D F N |
| `C83_crossing_gradient_in_a_transition` | D F N |
| `C84_parameter_gradient_is_right` | D F N |
| `C84_image_gradient_is_right` | D F N |
| `C84_backward_gradient_is_right` | D F N |
| `C84_backward_gradient_fails_when_parallel` | D F N |
| `C85_trace_is_the_code` | D F N |
| `C85_receiver_gradient_is_finite_iff` | C D F N |
| `C85_transmitter_gradient_is_finite_iff` | C D F N |
| `C85_receiver_gradient_is_right` | D F N |
| `C85_transmitter_gradient_is_right` | D F N |
| `C85_nan_gradient_of_a_smooth_accumulation` | C D F N |
| `C85_zero_length_walls_break_gradients` | D F N |
| `C87_trace_is_the_code` | D F N |
| `C87_receiver_gradient_is_finite_iff` | C D F N |
| `C87_transmitter_gradient_is_finite_iff` | C D F N |
| `C87_gradient_sums_over_the_valid_candidates` | D F N |
| `C87_receiver_gradient_is_right` | D F N |
| `C87_transmitter_gradient_is_right` | D F N |
| `C87_an_invalid_candidate_can_make_the_gradient_nan` | C D F N |
| `C97_steps_of_the_default_optimizer` | D F N |
| `C97_bounded_travel` | D F N |
| `C97_reach_of_the_solver_paths` | D F N |
| `C97_first_step` | D F N |
| `C97_stationary_points_are_kept` | D F N |
| `C97_constant_gradient` | D F N |
| `C97_moves_against_the_gradient` | D F N |
| `C97_default_arguments` | D F N |
| `C97_descent_refuted` | D F N |
| `C97_finite_runs` | D F N |
| `C97_nan_gradient_is_final` | D F N |
| `C97_a_nan_trial_wins` | D F N |
| `C97_best_trial_refuted_with_nan` | D F N |
| `C99_orders_add` | D F N |
| `C99_sum_of_single_orders` | D F N |
| `C99_receivers_grid_orders_add` | D F N |
| `C99_transmitters_grid_orders_add` | D F N |
| `C99_transmitters_add` | D F N |
| `C99_receivers_add` | D F N |
| `C99_linear_in_the_function` | C D F N |
| `C99_grids_add_in_the_function` | C D F N |
| `C77_segments_anywhere` | C D F N |
| `C89_exact_validity_anywhere` | C D F N |
| `C07_logic_functions_honour_approx` | D F |
| `C07_geometry_honours_approx` | D F |
| `C07_scene_honours_approx` | D F N |
| `C07_grids_honour_approx` | D F N |
| `C88_connectives_are_element_wise` | D F |
| `C88_comparisons_are_element_wise` | D F |
| `C88_one_operand_functions_are_element_wise` | D F N |
| `C88_other_operands_are_refused` | D F N |
| `C88_axis_0_combines_the_arguments` | D F |
| `C88_default_axis_refuses_arrays` | D F |
| `C88_other_axes` | D F |
| `C88_other_calls` | D F |
| `C88_arguments_of_several_shapes_are_refused` | D F |
| `C88_several_shapes_without_jit` | D F |
| `C88_no_argument` | D F |
| `C56_every_point_used_once` | D |
| `C56_index_names_distinct` | closed |
| `C57_walls_and_nodes` | D F |
| `C57_closed_ring_has_a_zero_length_wall` | D |
| `C57_no_features_member` | D F |
| `C57_default_corners` | D F |
| `C57_altitudes_are_rejected` | D F |
| `C58_point_feature_is_an_error` | D F |
| `C58_empty_coordinates` | D F |
| `C58_missing_coordinates` | D F |
| `C58_other_geometries_are_ignored` | D F |
| `C59_square_scene` | D F |
| `C59_square_scene_with_wall` | D F |
| `C59_square_scene_with_obstacle` | D F |
| `C59_basic_scene` | D F |
| `C59_default_nodes_are_in_the_room` | D F |
| `C45_exactly_the_admissible_sequences` | closed |
| `C45_no_duplicates_sorted` | closed |
| `C45_order_is_min_and_max` | closed |
| `C45_count` | closed |
| `C45_default_orders` | closed |
| `C45_closed_under_reversal` | closed |
| `C46_filter_objects_restricts_candidates` | D |
| `C46_accepting_filter_changes_nothing` | D |
| `C47_objects_at_the_indices` | closed |
| `C47_candidates_never_fail` | D |
| `C47_negative_index` | closed |
| `C47_too_large_index` | closed |
| `C86_hard_score_is_capped` | C D F N |
| `C86_sigmoid_score_is_capped` | C D F N |
| `C86_default_score_is_at_most_two_thirds` | C D F N |
| `C86_free_space_gets_two_thirds` | D F |
| `C86_accumulated_value_is_at_most_two_thirds` | C D F N |
| `C64_valid_paths_are_exactly_the_specular_paths` | C D F N |
| `C64_exact_values_sum_over_the_specular_paths` | C D F N |
| `C65_comparisons_are_lipschitz` | C D F N |
| `C65_connectives_do_not_amplify` | D F |
| `C65_all_and_any_do_not_amplify` | D F |
| `C65_constant_is_attained` | C D F N |
| `C66_segments_intersect_is_continuous` | C D F N |
| `C66_overlapping_segments_jump` | C D F N |
| `C67_validity_is_continuous` | C D F N |
| `C68_image_path_is_continuous` | D F N |
| `C68_parallel_configurations_run_away` | D F N |
| `C69_accumulated_values_are_continuous` | C D F N |
| `C69_reduced_value_is_continuous` | C D F N |
| `C69_received_power_is_continuous` | D F N |
| `C69_candidates_without_filter` | D F |
| `C69_exact_values_jump` | D F N |
| `C78_gradient_descent_rate` | D F N |
| `C78_the_gradient_exists` | D F N |
| `C78_gradient_descent_converges` | D F N |
| `C78_descent_path_tends_to_image_path` | D F N |
| `C78_descent_validity_tends_to_image_validity` | C D F N |
| `C78_one_reflection_is_found` | D F N |
| `C24_paths_through_vertices` | D F N |
| `C24_vertices_of_a_wall` | D F N |
| `C24_valid_paths_through_vertices` | C D F N |
| `C24_a_wall_stops_the_rays_to_its_own_ends` | D F |
| `C24_no_valid_path_bends_at_the_end_of_a_wall` | C D F N |
| `C94_no_leg_goes_through` | C D F N |
| `C94_other_paths_stay` | C D F N |
| `C71_smoothed_values_in_range` | C D F N |
| `C71_finite_comparisons_are_not_nan` | C D F N |
| `C72_comparison_is_monotone` | C D F N |
| `C72_exact_saturation` | C D F N |
| `C72_answers_agree_with_the_order` | C D F N |
| `C72_dead_zone` | C D F N |
| `C72_the_other_comparisons` | C D F N |
| `C73_de_morgan_is_exact` | C D F N |
| `C73_double_negation` | C D F N |
| `C73_double_negation_loses_small_values` | C D F N |
| `C74_validity_score_in_range` | C D F N |
| `C74_nan_paths_are_invalid` | C D F N |
| `C75_path_length_bounds` | C D F N |
| `C75_received_power_bounds` | C D F N |
| `C75_accumulation_only_grows` | C D F N |
| `C76_comparison_accuracy` | C D F N |
| `C76_default_arguments` | C D F N |
| `C76_overflow_breaks_accuracy` | C D F N |
| `C77_segments_on_a_grid` | C D F N |
| `C77_a_crossing_can_be_missed` | C D F N |
| `C12_exact_crossing_condition` | D F |
| `C12_zero_tolerance_is_common_point` | D F |
| `C13_parallel_never_intersect` | D F N |
| `C13_zero_length_is_parallel` | D F |
| `C13_zero_slope_gives_nan` | D F N |
| `C13_no_nan_escapes` | C D F N |
| `C14_symmetry` | D F |
| `C15_threshold_agrees_off_boundary` | C D F N |
| `C16_length_error_bound` | D F N |
| `C16_length_nonnegative_and_translation_invariant` | D F N |
| `C16_length_at_least_distance` | D F N |
| `C16_zero_length` | D F N |
| `C17_normalize` | D F N |
| `C18_closest_point_is_first_nearest` | D F N |
| `C18_closest_point_of_nothing_fails` | closed |
| `C19_image_is_mirror` | D F N |
| `C19_zero_length_wall` | D F N |
| `C20_coordinates_inverse_and_projection` | D F N |
| `C20_endpoints` | D F |
| `C20_zero_length_wall_parameter` | D F |
| `C21_contains_exact` | D F |
| `C21_samples_are_on_the_object` | D F |
| `C22_score_range` | D F N |
| `C22_score_zero_iff_specular` | D F N |
| `C22_score_four_iff_opposite` | D F N |
| `C22_score_invariant_by_reversal` | D F N |
| `C23_ris_score_formula` | D F N |
| `C23_ris_angle_exists` | C D F N |
| `C23_ris_zero_iff_angle` | D F N |
| `C23_ris_range_periodic_and_ignores_incidence` | C D F N |
| `C24_vertices_never_obstruct_and_accept` | D F N |
| `C25_what_rotate_computes` | D F N |
| `C25_rotate_correct_iff` | D F N |
| `C25_rotate_refuted` | D F N |
| `C26_unstack_stack` | D |
| `C26_stack_accepts_exactly_one_class` | D |
| `C26_mixed_classes_rejected` | D |
| `C27_point_and_object_boxes_tight` | D F |
| `C28_locations_inside_box` | D F |
| `C28_compass` | D F |
| `C28_grid` | D F |
| `C28_square_grid_by_default` | D F |
| `C28_default_grid` | D F |
| `C89_exact_validity_on_a_grid` | C D F N |
| `C90_score_never_contradicts` | C D F N |
| `C90_score_decides_moderate_scenes` | C D F N |
| `C90_overflow_rejects_a_valid_path` | C D F N |
| `C31_image_points_on_walls_and_image_lines` | D F N |
| `C32_loss_is_four_times_the_number_of_crossed_walls` | D F N |
| `C32_loss_test_is_true_reflection_test` | D F N |
| `C33_true_reflections_give_the_shortest_path` | D F N |
| `C34_image_path_reciprocity` | D F N |
| `C34_validity_reciprocity` | D F |
| `C35_degenerate_step_repeats_the_next_point` | D F N |
| `C35_degenerate_step_costs_one_or_collapses` | D F N |
| `C35_degenerate_paths_are_rejected` | D F N |
| `C35_collapse_has_no_loss` | D F N |
| `C63_valid_image_paths_are_physical` | D F N |
| `C64_every_specular_polyline_is_the_image_path` | D F N |
| `C96_images_are_exact` | C D F N |
| `C96_reflection_points` | C D F N |
| `C96_loss_is_small` | C D F N |
| `C96_verdict` | C D F N |
| `C96_default_tolerance` | C D F N |
| `C96_oblique_images_are_not_exact` | C D F N |
| `C96_corner_points_are_not_exact` | C D F N |
| `C94_size_of_the_leak` | C D F N |
| `C94_smoothed_validity_through_walls` | C D F N |
| `C94_smoothed_total_through_walls` | C D F N |
| `C94_smoothed_maps_through_walls` | C D F N |
| `C94_steep_smoothing_seals_the_room` | C D F N |
| `C94_default_smoothing_leaks` | C D F N |
| `C01_comparisons_in_unit_interval` | C D F N |
| `C01_connectives_in_unit_interval` | D F |
| `C01_all_any_in_unit_interval` | D F |
| `C01_infinite_operands` | D F N |
| `C02_crisp_connectives` | D F |
| `C02_crisp_all_any` | D F |
| `C02_exact_connectives` | D F |
| `C02_lattice_laws` | D F |
| `C02_de_morgan_all` | D F |
| `C03_threshold_recovers_strict_comparison` | C D F N |
| `C03_greater_less_sum_to_one` | C D F N |
| `C03_exact_comparison` | D F |
| `C04_nonstrict_disagrees_only_at_equality` | C D F N |
| `C05_hard_sigmoid_becomes_exact` | D F |
| `C05_sigmoid_converges` | C D F N |
| `C06_is_true_is_false` | D F |
| `C61_rotations_and_translations_are_direct` | D F N |
| `C61_image_path_moves_with_the_scene` | D F N |
| `C61_all_classes_move_with_the_scene` | D F N |
| `C61_tests_are_invariant` | D F N |
| `C61_single_segments` | D F N |
| `C61_enumeration_moves_with_the_scene` | D F N |
| `C61_valid_paths_move_with_the_scene` | D F N |
| `C61_accumulation_is_invariant` | D F N |
| `C61_received_power_is_invariant` | D F N |
| `C61_a_mirrored_RIS_is_another_surface` | D F N |
| `C61_epsilon_breaks_rotations` | D F N |
| `C96_images_anywhere` | C D F N |
| `C96_one_reflection_anywhere` | C D F N |
| `C96_verdict_anywhere` | C D F N |
| `C96_scene_anywhere` | C D F N |
| `C96_default_tolerance_anywhere` | C D F N |
| `C92_listing_order_same_paths` | D F N |
| `C92_wall_direction_same_paths` | D F N |
| `C92_same_scenery_same_values` | D F N |
| `C92_same_scenery_same_maps` | D F N |
| `C92_ris_direction_matters` | D F N |
| `C24_vertices_do_not_affect_validity` | D F |
| `C27_path_box_tight` | D F |
| `C29_endpoints_and_length` | D F N |
| `C29_constructors_succeed` | D F N |
| `C29_path_visits_the_middle_of_each_object` | D F N |
| `C29_image_path_errors` | D F N |
| `C30_points_on_objects_in_order` | D F |
| `C30_each_parameter_used_once` | closed |
| `C30_solver_paths_on_objects` | D F N |
| `C36_on_objects_is_projection_test` | D F |
| `C36_does_not_imply_on_the_wall` | D F |
| `C37_intersects_iff_obstructed` | D F |
| `C37_short_candidate_fails` | D F |
| `C38_exact_validity` | D F |
| `C38_default_arguments` | D F |
| `C39_smoothed_validity_in_unit_interval` | C D F N |
| `C39_is_valid_never_fails` | D F |
| `C40_smoothed_validity_characterised` | C D F N |
| `C40_smoothed_implies_exact_and_conversely_off_wall_ends` | C D F N |
| `C41_exact_validity_antitone` | D F |
| `C41_smoothed_score_antitone` | C D F N |
| `C42_wall_behind_receiver_blocks` | D F |
| `C42_only_within_half_percent` | D F |
| `C43_minimize_returns_last_iterate_and_previous_loss` | D |
| `C43_zero_steps_fails` | closed |
| `C43_reported_loss_is_not_at_the_returned_point` | D F |
| `C44_best_trial` | D F |
| `C44_single_trial_uses_the_key_itself` | D |
| `C70_plot_draws_the_whole_scene` | D F |
| `C70_a_general_colour_is_rejected` | D F |
| `C70_point_ray_and_path_are_one_call` | D F |
| `C70_a_label_is_put_at_its_offset` | D |
| `C70_default_arguments` | D F |
| `C70_plotting_only_adds` | D |
| `C60_bounds_of_the_power` | D F N |
| `C60_longer_paths_and_more_interactions_bring_less` | D F N |
| `C60_strictly_less` | D F N |
| `C60_depends_on_the_points_only` | D F N |
| `C60_default_at_most_P0` | D F N |
| `C60_default_value` | D F N |
| `C60_without_height` | D F N |
| `C62_finite_and_non_negative` | C D F N |
| `C62_total_finite_and_non_negative` | C D F N |
| `C62_exact_mode_sums_the_valid_paths` | D F N |
| `C62_more_orders_never_less` | C D F N |
| `C93_image_path_backwards` | D F N |
| `C93_valid_paths` | C D F N |
| `C93_accumulated_values` | C D F N |
| `C93_transmitter_map_is_receiver_map` | C D F N |
| `C93_received_power` | D F N |
| `C93_step_breaks_received_power` | D F N |
| `C93_ris_works_one_way` | D F N |
| `C94_valid_path_stays` | D F N |
| `C94_valid_paths_of_a_scene_stay` | D F N |
| `C94_smoothed_valid_paths_stay` | C D F N |
| `C94_nothing_gets_through` | D F N |
| `C94_maps_stop_at_the_walls` | D F N |
| `C94_rectangles` | D F |
| `C94_built_in_rooms` | D F |
| `C94_default_receiver_in_the_obstacle` | D F N |
| `C94_paths_exist_inside` | D F |
| `C94_entrance_lets_paths_through` | D F |
| `C46_filter_keeps_paths_and_validity` | D F N |
| `C51_all_paths_in_order` | D F N |
| `C51_each_once` | D F N |
| `C51_order_of_triples` | closed |
| `C51_never_fails` | D F N |
| `C51_default_arguments` | D F N |
| `C52_valid_paths_are_the_filtered_paths` | D F N |
| `C53_sums_per_pair` | D F N |
| `C53_no_candidate_yields_nothing` | D F N |
| `C53_reduce_all_is_the_total` | D F N |
| `C54_receivers_grid_is_pointwise` | D F N |
| `C54_transmitters_grid_is_pointwise` | D F N |
| `C54_receivers_grid_entries` | D F N |
| `C54_transmitters_grid_entries` | D F N |
| `C54_own_nodes_irrelevant` | D F N |
| `C54_shapes_must_agree` | D F N |
| `C54_failures_are_raised` | D F N |
| `C55_receivers_grid_reduction` | D F N |
| `C55_transmitters_grid_reduction` | D F N |
| `C55_mode_precedence` | closed |
| `C91_scalings_are_similarities` | D F N |
| `C91_motions_are_similarities` | D F N |
| `C91_paths_scale_with_the_scene` | D F N |
| `C91_tests_have_no_unit` | D F N |
| `C91_enumeration_scales_with_the_scene` | D F N |
| `C91_valid_paths_scale_with_the_scene` | D F N |
| `C91_lengths_scale` | D F N |
| `C91_received_power_scales` | D F N |
| `C91_epsilon_has_a_unit` | D F N |
| `C18_closest_transmitter` | D F N |
| `C18_closest_receiver` | D F N |
| `C26_scene_stacking_round_trip` | D |
| `C26_from_walls_array` | closed |
| `C26_nothing_to_stack` | D |
| `C27_scene_box_tight` | D F |
| `C48_from_mapping_is_faithful` | closed |
| `C48_mismatched_lengths_rejected` | closed |
| `C48_one_meaning` | closed |
| `C49_with_transmitters` | closed |
| `C49_with_receivers` | closed |
| `C49_update_transmitters_is_union` | closed |
| `C49_update_receivers_is_union` | closed |
| `C49_object_updates` | closed |
| `C49_reachable_scenes_have_distinct_names` | closed |
| `C50_rename_transmitters` | closed |
| `C50_rename_receivers` | closed |
| `C50_unknown_names_ignored` | closed |
| `C96_power_of_a_scene` | C D F N |
| `C96_a_scene_has_a_power` | C D F N |
| `C98_hard_score_is_the_margin` | C D F N |
| `C98_sigmoid_score_is_the_margin` | C D F N |
| `C98_settled_paths_score_close_to_exact` | C D F N |
| `C98_borderline_paths_score_one_half` | C D F N |
| `C98_larger_alpha_is_sharper` | C D F N |
| `C98_accumulated_values_approach_the_exact_ones` | C D F N |
| `C98_accumulated_values_converge` | C D F N |
| `C33_shortest_path_is_unique` | D F N |
| `C78_fermat_objective_is_convex` | D F N |
| `C78_local_minima_are_global` | D F N |
| `C78_image_path_minimises_fermat_objective` | D F N |
| `C78_converged_fermat_path_is_shortest` | D F N |
| `C78_converged_fermat_path_is_the_image_path` | D F N |
| `C79_min_objective_is_nonnegative` | D F N |
| `C79_image_path_minimises_min_objective` | D F N |
| `C79_zero_objective_is_the_image_path` | D F N |
| `C79_fermat_path_reports_its_own_loss` | D F N |
| `C79_min_path_reports_the_previous_loss` | D F N |
| `C79_valid_min_path_may_break_the_reflection_law` | D F N |
| `C95_text_or_file` | D F |
| `C95_read_exactly_once` | D F |
| `C95_refused` | D F |
| `C95_names_and_nodes` | D F |
| `C95_ratio` | D F |
| `C95_unknown_name` | D F |
| `C08_enable_approx_restores` | closed |
| `C08_same_value_before_and_after` | closed |
| `C08_single_thread_refines_spec` | closed |
| `C08_disable_is_enable_not` | closed |
| `C09_blocks_are_isolated` | closed |
| `C10_restore_refuted_across_threads` | closed |
| `C10_no_deadlock` | closed |
| `C11_explicit_approx_always_followed` | closed |
| `C11_first_call_freezes` | closed |
| `C11_uncached_call_follows_switch` | closed |
| `C11_constant_switch` | closed |
| `C11_consistent_mode_refuted` | closed |
| `C11_clearing_outer_cache_refuted` | closed |
| `C85_receiver_gradient_in_transitions` | C D F N |
| `C85_transmitter_gradient_in_transitions` | C D F N |
| `C85_settled_paths_are_decided` | D F |
<!-- END -->
