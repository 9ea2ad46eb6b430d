{
 "claims": [
  {
   "property": "C01",
   "status": "proved",
   "theorems": [
    "C01_ids_fresh",
    "C01_add_primitive",
    "C01_add_helpers",
    "C01_ids_stable"
   ],
   "note": "All histories of fewer than 2^64-1 calls, any arithmetic."
  },
  {
   "property": "C02",
   "status": "proved",
   "theorems": [
    "C02_no_duplicates",
    "C02_lookup_inverse",
    "C02_already_present",
    "C02_get_all_points",
    "valid_sketches"
   ],
   "note": "Reachable sketches are valid (valid_sketches). A registered cell is always rejected; the error is PrimitiveAlreadyInSketch unless one of its references was deleted, which the code tests first."
  },
  {
   "property": "C03",
   "status": "proved",
   "theorems": [
    "C03_references_closed",
    "C03_primitive_missing_reference",
    "C03_constraint_missing_reference",
    "C03_add_primitive_succeeds"
   ],
   "note": ""
  },
  {
   "property": "C04",
   "status": "partial",
   "theorems": [
    "C04_refuted",
    "C04_delete_unreferenced_partial"
   ],
   "note": "The statement is false of the code: delete_primitive does not look at references. Proved: a counterexample, and the statement when nothing registered refers to the deleted primitive."
  },
  {
   "property": "C05",
   "status": "proved",
   "theorems": [
    "C05_add_constraint",
    "C05_constraints_once",
    "C05_insertion_order"
   ],
   "note": ""
  },
  {
   "property": "C06",
   "status": "partial",
   "theorems": [
    "C06_refuted",
    "C06_actual_behaviour_partial"
   ],
   "note": "The statement is false of the code: the retain predicate is inverted. Proved: counterexamples for both outcomes and the exact behaviour for every sketch."
  },
  {
   "property": "C07",
   "status": "proved",
   "theorems": [
    "C07_rejected_call_changes_nothing",
    "C07_rejected_helper",
    "C07_delete_primitive"
   ],
   "note": ""
  },
  {
   "property": "C08",
   "status": "proved",
   "theorems": [
    "C08_degrees_of_freedom",
    "C08_layout_by_id"
   ],
   "note": ""
  },
  {
   "property": "C09",
   "status": "proved",
   "theorems": [
    "C09_set_then_get",
    "C09_get_then_set",
    "C09_panics_iff",
    "C09_wrong_length_writes_nothing"
   ],
   "note": ""
  },
  {
   "property": "C10",
   "status": "proved",
   "theorems": [
    "C10_set_data_frame",
    "C10_shared_points_updated"
   ],
   "note": ""
  },
  {
   "property": "C11",
   "status": "partial",
   "theorems": [
    "C11_refuted",
    "C11_clone_shares_data_partial"
   ],
   "note": "The statement is false of the code: Clone copies Rc handles. Proved: a counterexample and that the clone writes the same data into the original."
  },
  {
   "property": "C12",
   "status": "proved",
   "theorems": [
    "C12_exact",
    "C12_binary64"
   ],
   "note": "Exact arithmetic and IEEE binary64, for arbitrary data including infinities and NaN: no loss compares below zero."
  },
  {
   "property": "C13",
   "status": "proved",
   "theorems": [
    "C13_loss_is_half_squared_residual",
    "C13_zero_iff_satisfied"
   ],
   "note": "Exact arithmetic, finite data; residuals and satisfaction are defined independently in ExactSpec.v."
  },
  {
   "property": "C14",
   "status": "proved",
   "theorems": [
    "C14_loss_is_sum",
    "C14_zero_iff_all_satisfied",
    "C14_positive_entries_are_conflicts"
   ],
   "note": ""
  },
  {
   "property": "C15",
   "status": "proved",
   "theorems": [
    "C15_gradient_is_derivative"
   ],
   "note": "Exact arithmetic, every direction, every sketch whose configuration is not degenerate in the sense of ExactSpec.nondegenerate (the places where the loss is not differentiable or the code skips the row)."
  },
  {
   "property": "C16",
   "status": "proved",
   "theorems": [
    "C16_jacobian_rows",
    "C16_columns_sum_to_gradient"
   ],
   "note": ""
  },
  {
   "property": "C17",
   "status": "proved",
   "theorems": [
    "C17_depends_on_data_only",
    "C17_twice",
    "C17_no_effect_on_data"
   ],
   "note": "Any arithmetic."
  },
  {
   "property": "C18",
   "status": "partial",
   "theorems": [
    "C18_refuted",
    "C18_partial"
   ],
   "note": "The statement is false of the code: the unwrap of try_normalize panics when an equal-length constraint has a line of length zero. Proved: a reachable counterexample, and that in exact arithmetic this is the only way gradient evaluation can panic on finite data."
  },
  {
   "property": "C19",
   "status": "partial",
   "theorems": [
    "C19_refuted",
    "C19_partial"
   ],
   "note": "The statement is false of the code: there are satisfiable, unsatisfied configurations with gradient zero. Proved: a reachable counterexample, and for one constraint the exact set of such configurations (ExactSpec.stuck)."
  },
  {
   "property": "C20",
   "status": "proved",
   "theorems": [
    "C20_rotation",
    "C20_translation",
    "C20_sketch"
   ],
   "note": ""
  },
  {
   "property": "C21",
   "status": "proved",
   "theorems": [
    "C21_gradient_descent",
    "C21_bfgs",
    "C21_bfgs_any_fuel",
    "C21_never_out_of_fuel",
    "C21_gauss_newton",
    "C21_levenberg_marquardt",
    "C21_line_search",
    "solve_is_run"
   ],
   "note": "Any arithmetic. BFGS: n accepted steps and k failed searches with n <= max and k <= n+1, so at most 2*max+1 passes."
  },
  {
   "property": "C22",
   "status": "proved",
   "theorems": [
    "C22_gradient_descent",
    "C22_bfgs"
   ],
   "note": "Any arithmetic."
  },
  {
   "property": "C23",
   "status": "partial",
   "theorems": [
    "C23_gauss_newton_refuted",
    "C23_levenberg_marquardt_refuted",
    "C23_gauss_newton_partial",
    "C23_levenberg_marquardt_partial"
   ],
   "note": "The statement is false of the code: the loss tested is the one before the last step. Proved: binary64 counterexamples (with the true pseudo-inverse) and that the loss before the last step was not above min_loss."
  },
  {
   "property": "C24",
   "status": "proved",
   "theorems": [
    "C24_accepted",
    "C24_rejected",
    "C24_failed",
    "C24_exact"
   ],
   "note": "Any arithmetic (C24_accepted, C24_rejected, C24_failed) and in real numbers (C24_exact)."
  },
  {
   "property": "C25",
   "status": "proved",
   "theorems": [
    "C25_gradient_descent_monotone",
    "C25_binary64",
    "C25_binary64_steps",
    "C25_canonical",
    "C25_strict_refuted"
   ],
   "note": "Exact arithmetic, strictly; binary64 with every libm, not strictly (C25_strict_refuted shows that an accepted step may leave the computed loss as it is)."
  },
  {
   "property": "C26",
   "status": "partial",
   "theorems": [
    "C26_gradient_descent_refuted",
    "C26_bfgs_refuted",
    "C26_gradient_descent_partial",
    "C26_bfgs_partial"
   ],
   "note": "The statement is false of the code: after 15 unsuccessful trials the sketch stays at the last trial point, and the loss can be larger than before. Proved: binary64 counterexamples with default parameters, and exactly where each error leaves the sketch."
  },
  {
   "property": "C27",
   "status": "partial",
   "theorems": [
    "C27_refuted",
    "C27_partial",
    "C27_binary64_partial",
    "C27_binary64_steps"
   ],
   "note": "The statement is false of the code: after a failed search the loop continues from the failed trial point and may stop there with Ok. Proved: a binary64 counterexample with default parameters, and, in exact arithmetic and in binary64, monotonicity of runs without a failed search."
  },
  {
   "property": "C28",
   "status": "proved",
   "theorems": [
    "C28_positive_definite",
    "C28_secant",
    "C28_textbook_update",
    "C28_non_descent_only_after_failure"
   ],
   "note": "Exact arithmetic, every dimension."
  },
  {
   "property": "C29",
   "status": "proved",
   "theorems": [
    "C29_frame"
   ],
   "note": "Any arithmetic, any pseudo-inverse, every outcome."
  },
  {
   "property": "C30",
   "status": "proved",
   "theorems": [
    "C30_gradient_descent",
    "C30_bfgs_loss",
    "C30_bfgs_gradient",
    "C30_same_data",
    "C30_least_squares"
   ],
   "note": "Gradient methods in any arithmetic; Gauss-Newton and Levenberg-Marquardt in exact arithmetic for any pseudo-inverse."
  },
  {
   "property": "C31",
   "status": "proved",
   "theorems": [
    "C31_unconstrained_at_rest",
    "C31_every_solver",
    "C31_binary64_gradient_descent",
    "C31_binary64_bfgs",
    "C31_binary64_bfgs_bits_refuted"
   ],
   "note": "Every outcome including errors and panics. Exact arithmetic; gradient descent and BFGS also in binary64 (BFGS up to the sign of zeros). C31_every_solver adds Gauss-Newton and Levenberg-Marquardt for every pseudo-inverse that inverts on a sum of eigenspaces."
  },
  {
   "property": "C32",
   "status": "proved",
   "theorems": [
    "C32_finite"
   ],
   "note": "Any arithmetic, every outcome."
  },
  {
   "property": "C33",
   "status": "partial",
   "theorems": [
    "C33_refuted",
    "C33_never_reported",
    "C33_partial"
   ],
   "note": "The statement is false of the code: get_gradient asserts finiteness first, so the solver panics and the error is dead code."
  },
  {
   "property": "C34",
   "status": "proved",
   "theorems": [
    "C34_gradient_descent",
    "C34_bfgs"
   ],
   "note": "Exact arithmetic; n = 0 only when a stopping criterion already holds (C22)."
  },
  {
   "property": "C35",
   "status": "proved",
   "theorems": [
    "C35",
    "C35_once"
   ],
   "note": "Any arithmetic."
  },
  {
   "property": "C36",
   "status": "proved",
   "theorems": [
    "C36"
   ],
   "note": "Any arithmetic."
  },
  {
   "property": "C37",
   "status": "proved",
   "theorems": [
    "C37_C38_exact",
    "C37_C38_binary64",
    "C37_circle",
    "finite_geometry"
   ],
   "note": "Exact arithmetic for finite geometry; binary64 provided no turn angle is NaN. The walks are specified by an inductive relation independent of the code and shown unique; the sort is also shown stable."
  },
  {
   "property": "C38",
   "status": "proved",
   "theorems": [
    "C37_C38_exact",
    "C37_C38_binary64"
   ],
   "note": "Same theorems as C37 (last conjunct of rings_spec)."
  },
  {
   "property": "C39",
   "status": "proved",
   "theorems": [
    "C39",
    "C39_unused"
   ],
   "note": "Any arithmetic, any containment test."
  },
  {
   "property": "C40",
   "status": "partial",
   "theorems": [
    "C40_refuted",
    "C40_partial"
   ],
   "note": "The statement is false of the code: the index of the container is taken in the slice starting after the hole, so holes go to a face i+1 places too early; of two concentric circles the small one becomes its own hole. Proved: the counterexample and exactly which face gets which holes."
  },
  {
   "property": "C41",
   "status": "partial",
   "theorems": [
    "C41_refuted",
    "C41_partial",
    "C41_identity",
    "C41_panic",
    "C41_from_faces"
   ],
   "note": "The statement is false of the code: merge_faces merges nothing. Proved: two adjacent squares come back unmerged for every sensible geometry library; merge_faces filters its list and is the identity when interior points are right; when it panics."
  },
  {
   "property": "C42",
   "status": "proved",
   "theorems": [
    "C42_ends",
    "C42_involution",
    "C42_ring",
    "C42_ring_binary64",
    "C42_area",
    "C42_direction"
   ],
   "note": "Any arithmetic; area and direction in exact arithmetic."
  },
  {
   "property": "C43",
   "status": "partial",
   "theorems": [
    "C43_refuted",
    "C43_partial"
   ],
   "note": "The statement is false of the code: segment equality compares cached gradients and reversing an arc resets them. Proved: a counterexample, and independence for unchanged arcs and pairwise different points (any arithmetic)."
  },
  {
   "property": "C44",
   "status": "proved",
   "theorems": [
    "C44"
   ],
   "note": "Exact arithmetic."
  },
  {
   "property": "C45",
   "status": "partial",
   "theorems": [
    "C45_refuted",
    "C45_partial",
    "C45_binary64_partial"
   ],
   "note": "The statement is false of the code: a square with two dangling lines inside yields no ring. Proved: the counterexample, and that a polygon without further segments at its corners is found with its enclosed area."
  },
  {
   "property": "C46",
   "status": "partial",
   "theorems": [
    "C46_refuted",
    "C46_partial"
   ],
   "note": "The statement is false of the code: areas are those of the polygons through the corners, so two arcs never form a ring. Proved: the counterexample and that every ring has at least three segments."
  },
  {
   "property": "C47",
   "status": "proved",
   "theorems": [
    "C47_structure",
    "C47_values",
    "C47_stable"
   ],
   "note": "any arithmetic; serde data model level (tree of values, every Rc occurrence read back as a new cell)"
  },
  {
   "property": "C48",
   "status": "partial",
   "theorems": [
    "C48_refuted",
    "C48_unshared_partial",
    "C48_gradient_partial",
    "C48_loss_partial",
    "C48_inert_partial",
    "C48_every_solver_partial",
    "C48_binary64_partial"
   ],
   "note": "refuted as stated (binary64 witness); what holds: nothing in the copy is shared, its gradient and Jacobian vanish, its losses can never change, and no solver moves it (exact arithmetic; gradient descent and BFGS also bit for bit in binary64)"
  },
  {
   "property": "C49",
   "status": "partial",
   "theorems": [
    "C49_refuted",
    "C49_partial"
   ],
   "note": "refuted as stated (four binary64 histories); proved in every arithmetic: only the numbers in the listed unchecked calls can be the source"
  },
  {
   "property": "C50",
   "status": "proved",
   "theorems": [
    "C50"
   ],
   "note": "binary64 with round to nearest even; libm only assumed bounded"
  },
  {
   "property": "C51",
   "status": "proved",
   "theorems": [
    "C51_next",
    "C51_next_binary64",
    "C51_turn"
   ],
   "note": "Exact arithmetic; C51_next also in binary64 provided no turn angle is NaN."
  },
  {
   "property": "C52",
   "status": "proved",
   "theorems": [
    "C52_segments",
    "C52_circle",
    "C52_face"
   ],
   "note": "Exact arithmetic."
  },
  {
   "property": "C53",
   "status": "proved",
   "theorems": [
    "C53",
    "C53_circle"
   ],
   "note": "Any arithmetic."
  },
  {
   "property": "C54",
   "status": "partial",
   "theorems": [
    "C54_refuted",
    "C54_partial"
   ],
   "note": "The statement is false of the code: polar angles are used. Proved: a counterexample, and that they are a quarter turn off."
  },
  {
   "property": "C55",
   "status": "proved",
   "theorems": [
    "C55_gradient_descent",
    "C55_bfgs",
    "C55_gauss_newton",
    "C55_levenberg_marquardt"
   ],
   "note": "Any arithmetic."
  },
  {
   "property": "C56",
   "status": "partial",
   "theorems": [
    "C56_geometric_refuted",
    "C56_connects",
    "C56_equality",
    "C56_symmetric_transitive",
    "C56_binary64"
   ],
   "note": "Joining is proved. Equality is not geometric: a ring listed from another segment on, or with another cached gradient, is different. Proved: a counterexample, what == compares exactly, and that it is symmetric and transitive."
  },
  {
   "property": "C57",
   "status": "proved",
   "theorems": [
    "C57_leaves_data",
    "C57_accepts",
    "C57_no_false_alarm",
    "C57_sum_rejected"
   ],
   "note": "Any arithmetic; C57_no_false_alarm in exact arithmetic. The gradient compared is that of all constraints (C57_sum_rejected)."
  },
  {
   "property": "C58",
   "status": "proved",
   "theorems": [
    "C58_point",
    "C58_line",
    "C58_arc",
    "C58_circle"
   ],
   "note": "Any arithmetic."
  },
  {
   "property": "C59",
   "status": "proved",
   "theorems": [
    "C59"
   ],
   "note": "Any arithmetic."
  },
  {
   "property": "C60",
   "status": "proved",
   "theorems": [
    "C60_added",
    "C60_refused"
   ],
   "note": "Any arithmetic."
  },
  {
   "property": "C61",
   "status": "proved",
   "theorems": [
    "C61_point",
    "C61_line",
    "C61_arc",
    "C61_circle"
   ],
   "note": "Any arithmetic."
  },
  {
   "property": "C62",
   "status": "proved",
   "theorems": [
    "C62_centre_of_floating_group"
   ],
   "note": "Exact arithmetic, every outcome. The pseudo-inverse is any that inverts on a sum of eigenspaces and is zero on the others (exact_pinv)."
  },
  {
   "property": "C63",
   "status": "proved",
   "theorems": [
    "C63_descent_direction",
    "C63_small_steps_decrease"
   ],
   "note": "Exact arithmetic; exact_pinv as in C62."
  },
  {
   "property": "C64",
   "status": "proved",
   "theorems": [
    "C64_no_borrow_panic",
    "C64_shared_guards_coexist",
    "C64_guards_elsewhere",
    "C64_own_cells_block",
    "C64_changes_are_guarded"
   ],
   "note": "Any arithmetic. The guards of every function are transcribed in Borrow.v; C64_changes_are_guarded ties them to the state model."
  },
  {
   "property": "C65",
   "status": "proved",
   "theorems": [
    "C65_every_step",
    "C65_iteration_bound",
    "C65_convergence"
   ],
   "note": "Exact arithmetic."
  },
  {
   "property": "C66",
   "status": "proved",
   "theorems": [
    "C66_same_sketch",
    "C66_constraint_order",
    "C66_binary64_refuted"
   ],
   "note": "Exact arithmetic; C66_binary64_refuted shows that rounding breaks it. The pseudo-inverse is any that is independent of the choice of coordinates (coordinate_free)."
  },
  {
   "property": "C67",
   "status": "proved",
   "theorems": [
    "C67_rigid_motion"
   ],
   "note": "Exact arithmetic; coordinate_free as in C66."
  },
  {
   "property": "C68",
   "status": "proved",
   "theorems": [
    "C68",
    "C68_turn",
    "C68_remainder"
   ],
   "note": "binary64, lines and circles. Assumed of the platform: atan2 is accurate to 2^-50 (accurate_atan2; not needed by C68_remainder and C68_turn)."
  },
  {
   "property": "C69",
   "status": "proved",
   "theorems": [
    "C69_quadratic",
    "C69_no_false_minimum",
    "C69_convex",
    "C69_gap"
   ],
   "note": "Exact arithmetic."
  },
  {
   "property": "C70",
   "status": "partial",
   "theorems": [
    "C70_refuted",
    "C70_line_search",
    "C70_closer_partial",
    "C70_ok_partial"
   ],
   "note": "Refuted in binary64 for every libm by a chain of 90 points. Proved in exact arithmetic: exactly when the line search succeeds; gradient descent never gets farther from a solution; what Ok means. Missing: success, which is false."
  },
  {
   "property": "C71",
   "status": "proved",
   "theorems": [
    "C71_build",
    "C71_kept",
    "C71_zero",
    "C71_error",
    "C71_check",
    "C71_check_refuted",
    "C71_gradient_descent",
    "C71_gradient_descent_refuted",
    "C71_bfgs",
    "C71_bfgs_refuted"
   ],
   "note": "C71_build: any arithmetic; the others exact arithmetic. The _refuted theorems show that the limits on n are sharp and that the check does not bound the loss."
  },
  {
   "property": "C72",
   "status": "proved",
   "theorems": [
    "C72_build",
    "C72_build_exact",
    "C72_zero",
    "C72_error",
    "C72_check",
    "C72_tolerance"
   ],
   "note": "C72_build: any arithmetic; the others exact arithmetic."
  },
  {
   "property": "C73",
   "status": "proved",
   "theorems": [
    "C73_build",
    "C73_zero",
    "C73_error",
    "C73_asserts",
    "C73_refuted",
    "C73_binary64"
   ],
   "note": "C73_build: any arithmetic; C73_binary64: binary64, any libm; the others exact arithmetic. C73_refuted negates the parenthesised claim."
  },
  {
   "property": "C74",
   "status": "partial",
   "theorems": [
    "C74_build",
    "C74_zero",
    "C74_accepts",
    "C74_refuted"
   ],
   "note": "Exact arithmetic. Refuted by the placements in which c = d; C74_accepts proves the statement for c different from d, C74_zero lists all solutions."
  },
  {
   "property": "C75",
   "status": "proved",
   "theorems": [
    "C75_copy",
    "C75_references",
    "C75_line",
    "C75_constraint",
    "C75_data_refuted"
   ],
   "note": "Any arithmetic. C75_data_refuted negates the parenthesised claim."
  },
  {
   "property": "C76",
   "status": "proved",
   "theorems": [
    "C76_exact",
    "C76_binary64",
    "C76_reflexive",
    "C76_equal_loss",
    "C76_point_less",
    "C76_identity_refuted",
    "C76_reflexive_refuted"
   ],
   "note": "C76_reflexive: any arithmetic; C76_binary64: binary64, any libm; C76_equal_loss and C76_point_less: exact arithmetic. The _refuted theorems negate the parenthesised claims."
  },
  {
   "property": "C77",
   "status": "proved",
   "theorems": [
    "C77_arc",
    "C77_circle",
    "C77_rows"
   ],
   "note": "Exact arithmetic."
  },
  {
   "property": "C78",
   "status": "proved",
   "theorems": [
    "C78_never_fails",
    "C78_rate",
    "C78_gradient_bounds_loss",
    "C78_converges"
   ],
   "note": "Exact arithmetic."
  },
  {
   "property": "C79",
   "status": "proved",
   "theorems": [
    "C79_iteration",
    "C79_run",
    "C79_default",
    "C79_unsolved",
    "C79_ok"
   ],
   "note": "Exact arithmetic; pseudo-inverse as described in DESIGN.md."
  },
  {
   "property": "C80",
   "status": "proved",
   "theorems": [
    "C80_floor",
    "C80_default",
    "C80_never_reaches_threshold"
   ],
   "note": "Exact arithmetic; pseudo-inverse as described in DESIGN.md."
  },
  {
   "property": "C81",
   "status": "proved",
   "theorems": [
    "C81_panics",
    "C81_exact",
    "C81_converse",
    "C81_no_equal_length"
   ],
   "note": "C81_panics in any arithmetic; the others in exact arithmetic. check_gradients is left out (see C57); a converse for the other solvers is not claimed."
  },
  {
   "property": "C82",
   "status": "proved",
   "theorems": [
    "C82_stall",
    "C82_linear"
   ],
   "note": "Exact arithmetic; pseudo-inverse that cuts at the tolerance (DESIGN.md)."
  },
  {
   "property": "C83",
   "status": "proved",
   "theorems": [
    "C83_trajectory",
    "C83_solves",
    "C83_default"
   ],
   "note": "Exact arithmetic; pseudo-inverse that cuts at the tolerance (DESIGN.md)."
  },
  {
   "property": "C84",
   "status": "proved",
   "theorems": [
    "C84_loss",
    "C84_certifies",
    "C84_small",
    "C84_gradient_descent",
    "C84_bfgs",
    "C84_zero_refuted"
   ],
   "note": "Binary64; eleven of the twelve kinds of constraint; sine and cosine with an error of at most 2^-50 (DESIGN.md). C84_zero_refuted shows that the error term is needed."
  },
  {
   "property": "C85",
   "status": "proved",
   "theorems": [
    "C85_no_false_minimum",
    "C85_gradient_bounds_loss",
    "C85_rate",
    "C85_gradient_descent",
    "C85_cycle_refuted"
   ],
   "note": "Exact arithmetic. C85_cycle_refuted shows that the hypothesis on the order is needed."
  },
  {
   "property": "C86",
   "status": "proved",
   "theorems": [
    "C86_gradient",
    "C86_gradient_descent",
    "C86_bfgs",
    "C86_plateau_refuted"
   ],
   "note": "Binary64; eleven of the twelve kinds of constraint; sine and cosine with an error of at most 2^-50 (DESIGN.md). C86_plateau_refuted shows that the hypothesis on the sketch is needed."
  },
  {
   "property": "C87",
   "status": "proved",
   "theorems": [
    "C87_distinct",
    "C87_decimal",
    "C87_truthful",
    "C87_truthful_refuted"
   ],
   "note": "C87_truthful states the exception; C87_truthful_refuted shows that it occurs."
  },
  {
   "property": "C88",
   "status": "proved",
   "theorems": [
    "C88_gradient",
    "C88_gradient_descent",
    "C88_default",
    "C88_bfgs",
    "C88_stretched_refuted"
   ],
   "note": "Exact arithmetic. C88_stretched_refuted shows that the hypothesis on the distances is needed."
  },
  {
   "property": "C89",
   "status": "proved",
   "theorems": [
    "C89_gradient_descent",
    "C89_bfgs",
    "C89_solve",
    "C89_readings",
    "C89_mirror",
    "C89_swap_refuted"
   ],
   "note": "Binary64. C89_solve assumes a pseudo-inverse that commutes with changes of sign; the other theorems do not. C89_swap_refuted shows that exchanging the axes can change the number of iterations."
  },
  {
   "property": "C90",
   "status": "proved",
   "theorems": [
    "C90_solve",
    "C90_set_data",
    "C90_readings",
    "C90_order_refuted"
   ],
   "note": "Any arithmetic. C90_order_refuted shows that in binary64 the order of the constraints cannot be left out."
  },
  {
   "property": "C91",
   "status": "proved",
   "theorems": [
    "C91_live",
    "C91_kind",
    "C91_constraint",
    "C91_primitive",
    "C91_created",
    "C91_kept"
   ],
   "note": "Any arithmetic."
  },
  {
   "property": "C92",
   "status": "proved",
   "theorems": [
    "C92_angle",
    "C92_degenerate",
    "C92_coarse",
    "C92_loss",
    "C92_certifies",
    "C92_gradient_descent",
    "C92_bfgs"
   ],
   "note": "binary64; libm with accurate sin, cos and acos. C92_coarse shows that the bound for angles cannot be improved by more than a factor of 16."
  },
  {
   "property": "C93",
   "status": "proved",
   "theorems": [
    "C93_gradient_descent",
    "C93_readings",
    "C93_distance_refuted",
    "C93_angle_refuted",
    "C93_bfgs_refuted"
   ],
   "note": "C93_gradient_descent and C93_readings in exact arithmetic; the three witnesses in binary64, with powers of two as factors."
  },
  {
   "property": "C94",
   "status": "proved",
   "theorems": [
    "C94_gradient_descent",
    "C94_gauss_newton",
    "C94_levenberg_marquardt",
    "C94_content_refuted",
    "C94_bfgs_refuted"
   ],
   "note": "Any arithmetic; the two witnesses in binary64. The heaps after the two ways agree in everything but cached gradients."
  },
  {
   "property": "C95",
   "status": "proved",
   "theorems": [
    "C95_add",
    "C95_delete",
    "C95_exact",
    "C95_bfgs",
    "C95_lm",
    "C95_gn",
    "C95_binary64",
    "C95_binary64_anywhere_refuted"
   ],
   "note": "C95_exact (gradient descent) and C95_bfgs in exact arithmetic; C95_lm and C95_gn in exact arithmetic for runs that end without an error, with a pseudo-inverse that meets its definition on the matrices it accepts; C95_binary64 (gradient descent) in binary64; C95_binary64_anywhere_refuted shows that the condition on the number of coordinates cannot be left out there. C95_add, C95_delete: adding or deleting a primitive gives such a pair of sketches (any arithmetic)."
  }
 ]
}