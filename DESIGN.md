# A Rocq (Coq 8.16.1) model of ISOtope

ISOtope (`/repo`, crate `isotope` 0.1.0) is a 2D geometric constraint solver. This directory
holds a model of it in Rocq and proofs of the properties in `properties.jsonl`.
`MANIFEST.json` maps properties to theorems, `seeded/LOG.jsonl` records wrong programs
tried against the theorems.

## 1. Shape of the model

The code computes with `f64`, shares mutable cells through `Rc<RefCell<_>>`, and
panics through `assert!`. The model keeps all three visible.

* **Arithmetic is a parameter.** `Arith.v` defines a class `Arith F` of the scalar
  operations the code uses (`+ - * / sqrt sin cos acos atan2 %`, IEEE comparisons,
  `is_finite`, `total_cmp`, decimal literals, `PI`). The program model is written once
  over an arbitrary `Arith F`. Three uses:
  1. theorems for *every* `F` and *every* `Arith F`, without assuming any law ("any
     arithmetic"): they hold for IEEE binary64 with any libm;
  2. `ArithR.v`: exact arithmetic on `xR` = reals plus +inf, -inf, NaN ("exact
     arithmetic"), used for calculus and geometry;
  3. `ArithF.v`: IEEE binary64 from the standard library's `SpecFloat`, with
     sin/cos/acos/atan2 an arbitrary record of functions, since IEEE does not specify
     libm ("binary64"). `good_libm` (FloatSpec.v), assumed by C50, only says that sin and cos
     of finite numbers lie in [-1, 1] and acos of such a number in [-4, 4]. `accurate_atan2`
     (RoundSpec.v), assumed by C68, says that atan2 of two finite numbers that are not both
     zero lies in [-PI, PI] and is off by at most 2^-50, up to whole turns.
* **Heap.** `Rc<RefCell<T>>` is a typed location (`nat`) into one list of cells per type;
  `Rc::clone` copies the location, so aliasing is explicit. Safe Rust has no dangling
  handles; that handles stay in range is proved as part of the invariant `valid`
  (theorem `valid_sketches`). Pointer equality of `PrimitiveCell` and `ConstraintCell` is
  equality of typed locations.
* **Panics** are an explicit outcome `Panic` that carries the heap at that moment, so
  partial writes are visible. `Result` errors are data. Histories of calls continue
  after a panic (a caller may catch it).
* **Collections.** `BTreeMap<u64,_>` is a key-sorted association list, `VecDeque` and `Vec`
  are lists, u64 ids are `N` with the release-mode wrap-around modulo 2^64 written in.
* **External code** is a parameter over which theorems quantify: nalgebra's
  `pseudo_inverse` (any function of the matrix and the tolerance, which may also fail or
  panic) and geo's `contains` and `interior_point` (any functions), libm.
* **Borrow guards.** `Borrow.v` lists the `RefCell` guards of every function as nested
  intervals; C64 proves that none is refused. The guards are not threaded through the
  state monad; `C64_changes_are_guarded` ties the two descriptions together.

Theorems are in the `Props*.v` files, one `Theorem` per claim with an `Example` beside it
that meets its hypotheses on a concrete sketch. The words used in the statements are
defined in the `*Spec.v` files, not by helper functions of the model. Everything in
`*Lemmas.v`, `*Forms.v`, `*Witness.v` and similar is proof.

## 2. What is modelled

| Rust | Rocq | remarks |
|---|---|---|
| `primitives/point2.rs`, `line.rs`, `arc.rs`, `circle.rs` | `Prim.v` | all methods; getters are record projections; the constant gradient matrices of arc and circle (`center_gradient`, `radius_gradient`, ...) are in `Value.v` |
| `primitives/mod.rs` (`PrimitiveLike`, `PrimitiveCell`) | `prim_refs`, `prim_data`, `prim_grad`, `prim_zero`, `prim_set_data`, `pcell_eqb` in `Prim.v` | dispatch by case analysis; `Primitive`, `to_primitive`, `as_primitive_like` in `Value.v` |
| `constraints/**` (12 kinds) | `Cons.v` | `references` = `con_refs`, `loss_value`, `update_gradient` = `grad_rows` followed by the `add_to_gradient` calls in order, `current_*`, constructor assertions = `con_new_ok`; setters in `Api.v` |
| `constraints/mod.rs` | typed locations, `con_refs` etc. | `get_type`, `as_constraint_like` in `Value.v` |
| `sketch/mod.rs` | `Sketch.v` | every method |
| `error.rs` | `err` in `Sketch.v`, `message` in `Message.v` | the texts as thiserror puts them together |
| `solvers/line_search.rs` | `ls_loop`, `line_search_wolfe` in `Solve.v` | |
| `solvers/gradient_based_solver.rs` | `gd_run` | constructors: `gd_default`, record constructor |
| `solvers/bfgs_solver.rs` | `bfgs_run`, `bfgs_update`, `bfgs_sdoty` | loop on fuel; `C21_never_out_of_fuel` proves the fuel sufficient |
| `solvers/gauss_newton_solver.rs`, `levenberg_marquardt.rs` | `nls_loop` with `gn_normal`, `lm_normal`; `gn_run`, `lm_run` | `pseudo_inverse` is a parameter |
| `decompose/segment.rs`, `ring.rs`, `face.rs`, `mod.rs` | `Decomp.v` | all functions; `geo::Polygon` is its rings of points |
| serde derives (`rc` feature) | `Serde.v` | at the level of serde's data model (a tree of values; every `Rc` is read back as a new cell); text formats are left out |
| public API as a whole | `Api.v` (`op`, `step`, `run`) | histories of calls, including writes to the cells through `borrow_mut()` |
| derived `PartialEq` on segments and rings | `point_eq` ... `ring_eq` in `Decomp.v` | |
| derived `PartialEq`, `PartialOrd` on `Primitive` and `Constraint` | `primitive_eq`, `con_eq`, `primitive_cmp`, `con_cmp` in `Value.v` | comparison of vectors as in nalgebra |
| `RefCell` guards | `Borrow.v` | |
| `benches/solvers/*_benchmark.rs`, `src/examples/test_rectangle_*.rs` | `Bench.v` | construction of the sketch as a list of calls, and the check or the assertions; the timing loop of `benches/solvers/main.rs` is left out; `src/examples/benchmarks/mod.rs` declares two files that do not exist and is not part of the crate |

Every definition cites file and lines.

### Validation

`RepoTests.v` replays the crate's own tests in the model, in binary64, with the assertions of the
repository: all but the two that need a singular value decomposition (Gauss-Newton and
Levenberg-Marquardt). They pass, including the exact polygons of `test_find_rings_multiple`. These are
tests of the model, not proofs about the code; each result is computed while the file is compiled.

### Simplifications

* Summation order inside nalgebra: dot products of dynamic vectors use its eight
  accumulators (`sum_lanes`, transcribed from the public source of nalgebra 0.32, which is
  not in the sandbox), matrix times vector goes column by column as in `gemv`, and products
  of two matrices sum from left to right, which nalgebra does not do when all dimensions
  exceed 5 (only the normal equations of Gauss-Newton and Levenberg-Marquardt). This matters
  only for theorems about concrete runs in binary64; none of these involves a product of two
  large matrices.
* nalgebra's `norm` is the square root of the sum of squares, as in its source.
* `ptr::eq` on `dyn` pointers also compares vtables; the model compares addresses.
* `total_cmp` is the IEEE total order with a single NaN (SpecFloat has one NaN).
* Sorting rings: stable insertion sort by area, which is what `sort_by` computes whenever
  the comparison is a total order.
* A literal such as `1e-6` is the decimal fraction, rounded to nearest in binary64.
* Memory exhaustion and time are ignored; `usize` counters of at most `max_iterations`
  are `nat` or `N`.

### Not modelled

* `Debug` output, `Display` output except error messages (`Message.v`), `println!`, the tsify/wasm bindings, the timing loop and the
  tables of `benches/solvers/main.rs`.
* `intersections` (its body is `todo!()`).

### Assumption on the pseudo-inverse

Most theorems hold for any function in place of `pseudo_inverse`. C31_every_solver, C62, C63,
C79, C80 and the exact theorems of C81 assume `exact_pinv` (MotionSpec.v): for a symmetric matrix M, whenever it succeeds, the
result P is symmetric, commutes with M and satisfies P M P = P: it inverts M on a sum of
eigenspaces and is zero on the others. nalgebra computes the singular value decomposition and inverts the
singular values above the tolerance. For a symmetric matrix, exact singular values are the
moduli of the eigenvalues, and the blocks that are kept or dropped are sums of
eigenspaces (eigenvalues of equal modulus are kept or dropped together), so in exact
arithmetic `pseudo_inverse` has this property.

The exact theorems of C81 also assume `panics_only_on_empty` (PanicSpec.v): nalgebra's SVD
panics on a matrix without rows or columns and on no other.

C82 and C83 assume `cutting_pinv` (StallSpec.v): on a positive semidefinite matrix, whenever it succeeds, the
result inverts the matrix on the sum of the eigenspaces of the eigenvalues above the tolerance and
is zero on the others. The part of the result that is kept satisfies eps |w|^2 < w.Mw and the
part that is dropped satisfies w.Mw <= eps |w|^2; nalgebra keeps a singular value exactly if it
is above `eps`. The theorems do not assume that it always succeeds.

C84 and C86 assume `accurate_sincos` (AccuracySpec.v): the platform's sin and cos return, for finite arguments, finite numbers with
an absolute error of at most 2^-50. Rust's `f64::sin` and `f64::cos` call the platform's libm, whose errors are below 2^-52 in practice. C92 assumes the same of acos on [-1, 1] (`accurate_acos`, AngleSpec.v).

C66 and C67 assume `coordinate_free` (SymSpec.v): the pseudo-inverse of Q^T M Q, where Q is
orthogonal, is Q^T P Q, where P is that of M, or the call fails for both. Exact singular
values do not depend on the coordinates, and the tolerance is compared with them only.

## 3. Properties and method

(any = for every arithmetic; exact = over xR; binary64 = over SpecFloat)

| id | model part | method |
|----|-----------|--------|
| C01, C02, C03, C05, C07 | `Sketch.v`, `Api.v` | any; invariant by induction over histories |
| C04, C06, C11 | same | `_refuted` witness; exact characterisation of what the code does |
| C08-C10 | `Prim.v`, `Sketch.v` | any; induction over the primitive list |
| C12 | `Cons.v` | exact; binary64: sign analysis of SpecFloat operations |
| C13, C14, C20 | `Cons.v`; relations in `ExactSpec.v` | exact; real algebra, trigonometry |
| C15, C16 | `Cons.v`, `Sketch.v` | exact; derivatives along affine paths, sum over constraints with aliasing |
| C17 | same | any; relational proof (data-equal heaps) |
| C18, C19 | same | `_refuted`; exact no-panic theorem outside the degenerate case |
| C21, C22, C29, C32, C33, C55 | `Solve.v` | any; induction on the iteration budget |
| C23, C26, C27 | `Solve.v` | `_refuted` runs in binary64; the true part |
| C24, C25, C28, C30, C31, C34, C62, C63 | `Solve.v` | exact; invariants, linear algebra over lists; C31 also in binary64 |
| C35-C39, C41, C53, C56 | `Decomp.v` | any; invariants of the walk |
| C37, C38, C42, C44, C45, C46, C51, C52, C54 | `Decomp.v` | exact and binary64 |
| C40, C41, C43, C45, C46, C54, C56 | `Decomp.v` | `_refuted`; exact characterisation |
| C47, C48 | `Serde.v` | any; `_refuted` |
| C49 | `Api.v` | `_refuted` histories; any: which calls can store non-finite numbers |
| C50 | `ArithF.v` | binary64; error-free bounds with Flocq |
| C57-C61 | `Prim.v`, `Sketch.v`, `Api.v` | any; frame conditions |
| C25, C27 in binary64 | `Solve.v`, `ArithF.v` | binary64; monotonicity of rounding, every number stays canonical (`libm64` in NumSpec.v: libm returns binary64 numbers) |
| C64 | `Borrow.v` | any; ranking of guards |
| C65 | `Solve.v` | exact; sufficient decrease of the line search, sums of losses |
| C66, C67 | `Solve.v`, `Cons.v` | exact; simulation between two runs; binary64 counterexample |
| C68 | `Decomp.v`, `ArithF.v` | binary64 against exact; rounding error bounds with Flocq, simulation |
| C69, C70 | `Cons.v`, `Solve.v` | exact arithmetic (convexity of the loss of linear constraints); C70_refuted binary64, any libm |
| C71 - C74 | `Bench.v`, `Solve.v` | construction in any arithmetic; geometry and solver outcomes exact; C73_binary64 binary64, any libm |
| C75 - C77 | `Value.v`, `Api.v` | C75 any arithmetic; C76 exact and binary64; C77 exact |
| C78 | `Solve.v`, `Cons.v` | exact arithmetic; Poincare inequality on the graph of constraints (`GraphLemmas.v`) |
| C79, C80 | `Solve.v`, `Cons.v` | exact arithmetic; the sum of squared losses is convex, with a lower bound on what a step can gain |
| C81 | all model files | `C81_panics` any arithmetic; the others exact arithmetic with an exact pseudo-inverse that panics on empty matrices only |
| C82, C83 | `Solve.v`, `Cons.v` | exact arithmetic; J p = losses for the step p when nothing is cut, p = 0 when everything is |
| C84 | `Cons.v`, `Sketch.v` get_loss, `ArithF.v` | binary64; each operation with its rounding error against the exact geometry of `ExactSpec.v`; libm with accurate sin and cos |
| C85 | `Solve.v`, `Cons.v`, `Sketch.v` get_gradient | exact arithmetic; the constraints are peeled off in the order in which they were entered (`TreeSpec.v`) |
| C86 | `ArithF.v`, `Cons.v` gradients, `Sketch.v` get_gradient, `Solve.v` | binary64; not AngleBetweenPoints; distances at least 2^-19, compared lines at least 2^-100 long (`SlopeSpec.v`); sine and cosine as in C84 |
| C87 | `Message.v`, `Sketch.v`, `Api.v` | none; any arithmetic |
| C88 | `Solve.v`, `Cons.v`, `Sketch.v` get_gradient | exact arithmetic; the explicit gradient of a pair, two trial steps of the line search (`PairLemmas.v`) |
| C89 | `Solve.v`, `Cons.v`, `Sketch.v` | binary64; the operations commute with negation up to the sign of a zero (`MirrorLemmas.v`), and a relation kept by the operations is kept by every solver (`MirrorRel.v`) |
| C90 | `Solve.v`, `Sketch.v`, `Cons.v`, `Prim.v` | any arithmetic; two heaps related cell by cell stay related through every computation (`EmbedLemmas.v`) |
| C91 | `Api.v`, `Prim.v`, `Sketch.v` | any arithmetic; histories of calls |
| C92 | `Cons.v` current_angle and losses, `Sketch.v` get_loss, `ArithF.v`, `Solve.v` | binary64; rounding errors against the exact geometry; arms clear of the threshold 10^-6 by 2^-49; libm with accurate sin, cos and acos |
| C93 | `Solve.v` gd_run, bfgs_run, `Sketch.v`, `Cons.v` | exact arithmetic: a relation kept by the operations is kept by gradient descent (`ScaleRel.v`); thresholds scaled along; no arcs, angles or EuclideanDistance, for which (and for BFGS) binary64 witnesses show the failure |
| C94 | `Solve.v` gd_run, bfgs_run, gn_run, lm_run | any arithmetic; the solvers read nothing but data and structure (`ResumeLemmas.v`, from C17); witnesses in binary64 |
| C95 | `Solve.v` gd_run, bfgs_run, gn_run, lm_run, line_search_wolfe, `Sketch.v` add_primitive, delete_primitive | exact reals, gradient descent also in binary64; Gauss-Newton and Levenberg-Marquardt for an abstract pseudo-inverse, an error it reports being allowed to depend on the extra rows; the generic part (`SpareLemmas.v`) holds in any arithmetic in which the entries for the added primitives vanish from the dot products |

A property that the unchanged code violates is kept at full strength in
`properties.jsonl`. The theorem `..._refuted` proves its negation on the model with a
reachable witness, a companion theorem proves what does hold, and MANIFEST.json lists it
as `partial` with a note. There is no property whose proof is unfinished.

`seeded/LOG.jsonl` lists the wrong programs tried. `lemmas_failed` are the first proofs that
break in each file that no longer compiles; `theorems_failed` are the claims of MANIFEST.json
that rest on them. A claim is listed there because its proof no longer goes through, not because
its negation was proved: some of them may still hold of the wrong program with another proof.

## 4. Trusted base

* Coq's kernel. No kernel check is switched off; there are no axioms, parameters, section-less
  variables or admitted proofs of our own, no functors and no plugins.
* The reading of the Rust code that the model transcribes, with the simplifications above.
* The axioms of the standard library listed by `Print Assumptions` (below). They come from the
  construction of the real numbers and from classical logic in `Reals`, Coquelicot and Flocq.
  Coquelicot and Flocq are used in proofs only and add no axioms; no definition of the
  model or the specifications depends on them.

`Print Assumptions` for the theorems in MANIFEST.json gives one of two answers.

**Closed under the global context** (171 theorems):

C01_add_helpers, C01_add_primitive, C01_ids_fresh, C01_ids_stable, C02_already_present,
C02_get_all_points, C02_lookup_inverse, C02_no_duplicates, C03_add_primitive_succeeds,
C03_constraint_missing_reference, C03_primitive_missing_reference, C03_references_closed,
C04_delete_unreferenced_partial, C05_add_constraint, C05_constraints_once, C05_insertion_order,
C06_actual_behaviour_partial, C07_delete_primitive, C07_rejected_call_changes_nothing,
C07_rejected_helper, C08_degrees_of_freedom, C08_layout_by_id, C09_get_then_set, C09_panics_iff,
C09_set_then_get, C09_wrong_length_writes_nothing, C10_set_data_frame,
C10_shared_points_updated, C11_clone_shares_data_partial, C12_binary64, C14_loss_is_sum,
C17_depends_on_data_only, C17_no_effect_on_data, C17_twice, C21_bfgs, C21_bfgs_any_fuel,
C21_gauss_newton, C21_gradient_descent, C21_levenberg_marquardt, C21_line_search,
C21_never_out_of_fuel, C22_bfgs, C22_gradient_descent, C23_gauss_newton_partial,
C23_gauss_newton_refuted, C23_levenberg_marquardt_partial, C23_levenberg_marquardt_refuted,
C24_accepted, C24_failed, C24_rejected, C25_strict_refuted, C26_bfgs_partial, C26_bfgs_refuted,
C26_gradient_descent_partial, C26_gradient_descent_refuted, C27_refuted, C29_frame,
C30_bfgs_gradient, C30_bfgs_loss, C30_gradient_descent, C30_same_data, C31_binary64_bfgs,
C31_binary64_bfgs_bits_refuted, C32_finite, C33_never_reported, C33_partial, C33_refuted, C35,
C35_once, C36, C37_C38_binary64, C39, C39_unused, C40_partial, C41_from_faces, C41_identity,
C41_panic, C41_partial, C42_ends, C42_involution, C42_ring_binary64, C43_partial,
C45_binary64_partial, C47_stable, C47_structure, C47_values, C48_binary64_partial,
C48_gradient_partial, C48_loss_partial, C48_refuted, C48_unshared_partial, C49_partial,
C49_refuted, C51_next_binary64, C53, C53_circle, C55_bfgs, C55_gauss_newton,
C55_gradient_descent, C55_levenberg_marquardt, C56_binary64, C56_connects, C56_equality,
C56_geometric_refuted, C56_symmetric_transitive, C57_accepts, C57_leaves_data, C57_sum_rejected,
C58_arc, C58_circle, C58_line, C58_point, C59, C60_added, C60_refused, C61_arc, C61_circle,
C61_line, C61_point, C64_changes_are_guarded, C64_guards_elsewhere, C64_no_borrow_panic,
C64_own_cells_block, C64_shared_guards_coexist, C66_binary64_refuted, C70_refuted, C71_build,
C72_build, C73_binary64, C73_build, C74_build, C75_constraint, C75_copy, C75_line,
C75_references, C76_binary64, C76_reflexive, C81_panics, C87_decimal, C87_distinct,
C87_truthful, C87_truthful_refuted, C89_bfgs, C89_gradient_descent, C89_mirror, C89_readings,
C89_solve, C89_swap_refuted, C90_order_refuted, C90_readings, C90_set_data, C90_solve,
C91_constraint, C91_created, C91_kept, C91_kind, C91_live, C91_primitive, C93_angle_refuted,
C93_bfgs_refuted, C93_distance_refuted, C94_bfgs_refuted, C94_content_refuted, C94_gauss_newton,
C94_gradient_descent, C94_levenberg_marquardt, C95_add, C95_binary64_anywhere_refuted,
C95_delete, solve_is_run, valid_sketches

**The four axioms**
`ClassicalDedekindReals.sig_forall_dec`, `ClassicalDedekindReals.sig_not_dec`,
`Classical_Prop.classic`, `FunctionalExtensionality.functional_extensionality_dep`
(164 theorems):

C04_refuted, C06_refuted, C11_refuted, C12_exact, C13_loss_is_half_squared_residual,
C13_zero_iff_satisfied, C14_positive_entries_are_conflicts, C14_zero_iff_all_satisfied,
C15_gradient_is_derivative, C16_columns_sum_to_gradient, C16_jacobian_rows, C18_partial,
C18_refuted, C19_partial, C19_refuted, C20_rotation, C20_sketch, C20_translation, C24_exact,
C25_binary64, C25_binary64_steps, C25_canonical, C25_gradient_descent_monotone,
C27_binary64_partial, C27_binary64_steps, C27_partial, C28_non_descent_only_after_failure,
C28_positive_definite, C28_secant, C28_textbook_update, C30_least_squares,
C31_binary64_gradient_descent, C31_every_solver, C31_unconstrained_at_rest, C34_bfgs,
C34_gradient_descent, C37_C38_exact, C37_circle, C40_refuted, C41_refuted, C42_area,
C42_direction, C42_ring, C43_refuted, C44, C45_partial, C45_refuted, C46_partial, C46_refuted,
C48_every_solver_partial, C48_inert_partial, C50, C51_next, C51_turn, C52_circle, C52_face,
C52_segments, C54_partial, C54_refuted, C57_no_false_alarm, C62_centre_of_floating_group,
C63_descent_direction, C63_small_steps_decrease, C65_convergence, C65_every_step,
C65_iteration_bound, C66_constraint_order, C66_same_sketch, C67_rigid_motion, C68,
C68_remainder, C68_turn, C69_convex, C69_gap, C69_no_false_minimum, C69_quadratic,
C70_closer_partial, C70_line_search, C70_ok_partial, C71_bfgs, C71_bfgs_refuted, C71_check,
C71_check_refuted, C71_error, C71_gradient_descent, C71_gradient_descent_refuted, C71_kept,
C71_zero, C72_build_exact, C72_check, C72_error, C72_tolerance, C72_zero, C73_asserts,
C73_error, C73_refuted, C73_zero, C74_accepts, C74_refuted, C74_zero, C75_data_refuted,
C76_equal_loss, C76_exact, C76_identity_refuted, C76_point_less, C76_reflexive_refuted, C77_arc,
C77_circle, C77_rows, C78_converges, C78_gradient_bounds_loss, C78_never_fails, C78_rate,
C79_default, C79_iteration, C79_ok, C79_run, C79_unsolved, C80_default, C80_floor,
C80_never_reaches_threshold, C81_converse, C81_exact, C81_no_equal_length, C82_linear,
C82_stall, C83_default, C83_solves, C83_trajectory, C84_bfgs, C84_certifies,
C84_gradient_descent, C84_loss, C84_small, C84_zero_refuted, C85_cycle_refuted,
C85_gradient_bounds_loss, C85_gradient_descent, C85_no_false_minimum, C85_rate, C86_bfgs,
C86_gradient, C86_gradient_descent, C86_plateau_refuted, C88_bfgs, C88_default, C88_gradient,
C88_gradient_descent, C88_stretched_refuted, C92_angle, C92_bfgs, C92_certifies, C92_coarse,
C92_degenerate, C92_gradient_descent, C92_loss, C93_gradient_descent, C93_readings, C95_bfgs,
C95_binary64, C95_exact, C95_gn, C95_lm, finite_geometry
