(** * C21 - C34: the solvers *)
From Coq Require Import List ZArith NArith Arith Bool Lia Sorted Reals Lra Floats.SpecFloat.
From Verif Require Import Arith Vec Prim Cons Sketch Solve Api Spec SolverSpec ArithR ArithF ExactSpec
  HeapLemmas SolveLemmas BookLemmas WfLemmas DataLemmas SpecLemmas ExactLemmas GradLemmas LossLemmas
  RMat SearchLemmas StepLemmas ExactRun RestLemmas StayLemmas SolverForms SolverWitness.
Import ListNotations.

(** [gd_run], [bfgs_run], [gn_run], [lm_run] are [Solver::solve] returning in addition the number
    of iterations made when the result is Ok. *)
Theorem solve_is_run : forall {F} {A : Arith F} pinv s (h : heap F),
  let forget (p : heap F * out (sres nat)) := (fst p, match snd p with Val r => Val (sforget r) | Panic => Panic end) in
  let forgetN (p : heap F * out (sres N)) := (fst p, match snd p with Val r => Val (sforget r) | Panic => Panic end) in
  (forall P, solve pinv (GradientBased P) s h = forget (gd_run s P h)) /\
  (forall P, solve pinv (BFGS P) s h = forgetN (bfgs_run s P h)) /\
  (forall P, solve pinv (GaussNewton P) s h = forget (gn_run pinv s P h)) /\
  (forall P, solve pinv (LevenbergMarquardt P) s h = forget (lm_run pinv s P h)).
Proof. exact @solve_is_run_lemma. Qed.

(** ** Concrete sketches *)
(** exact arithmetic: two points, each fixed to a target, and a third, free point *)
Definition q (z : Z) : xR := Fin (IZR z).
Definition fx_ops : list (op xR) :=
  [AddPoint2 (q 1) (q 2); AddPoint2 (q 3) (q 4); Constrain (FixPoint 1 (q 0) (q 0)); Constrain (FixPoint 0 (q 5) (q 2))].
Definition fx_heap : heap xR :=
  mkHeap [Point2_new (q 1) (q 2); Point2_new (q 3) (q 4)] [] [] [] [FixPoint 1 (q 0) (q 0); FixPoint 0 (q 5) (q 2)].
Definition fx_sketch : sketch := mkSketch [(0%N, PPoint 0); (1%N, PPoint 1)] 2%N [0; 1].
Definition xpinv : mat xR -> xR -> pinv_res (mat xR) := fun _ _ => PErr.
Definition fx_fixes : list (loc * (R * R)) := [(1, (0%R, 0%R)); (0, (5%R, 2%R))].
Ltac okS := simpl; repeat split; repeat constructor; simpl; try lia.
Ltac goS := repeat (first [apply run_nil | eapply run_cons; [okS | cbv -[IZR]; reflexivity |]]).
Ltac con_finS := let k := fresh in let H := fresh in let d := fresh in
  intros k H; simpl in H;
  repeat (destruct H as [<- | H]; [split; [reflexivity | intros d; simpl; intros Hd; repeat (destruct Hd as [<- | Hd]; [reflexivity|]); destruct Hd] |]);
  destruct H.
Example fx_run : run xpinv init fx_ops [RetLoc 0; RetLoc 1; RetLoc 0; RetLoc 1] (fx_heap, fx_sketch).
Proof. unfold fx_ops. goS. Qed.
Example fx_valid : valid fx_heap fx_sketch.
Proof. exact (reachable_valid xpinv _ _ _ fx_run eq_refl). Qed.
Example fx_finite_data : finite_data fx_heap fx_sketch.
Proof. apply (finite_iff _ _ (valid_keys _ _ fx_valid)). reflexivity. Qed.
Example fx_finite : all_con_finite fx_heap fx_sketch.
Proof. con_finS. Qed.
Example fx_only : only_fixed_points fx_heap fx_sketch fx_fixes.
Proof.
  split; [reflexivity|]. split; [repeat constructor; simpl; intuition; discriminate|].
  intros c. rewrite (valid_reg _ _ _ fx_valid). simpl. intuition.
Qed.
(** the same with the second constraint missing: nothing depends on the first point *)
Definition fr_heap : heap xR :=
  mkHeap [Point2_new (q 1) (q 2); Point2_new (q 3) (q 4)] [] [] [] [FixPoint 1 (q 0) (q 0)].
Definition fr_sketch : sketch := mkSketch [(0%N, PPoint 0); (1%N, PPoint 1)] 2%N [0].
Example fr_run : run xpinv init [AddPoint2 (q 1) (q 2); AddPoint2 (q 3) (q 4); Constrain (FixPoint 1 (q 0) (q 0))]
  [RetLoc 0; RetLoc 1; RetLoc 0] (fr_heap, fr_sketch).
Proof. goS. Qed.
Example fr_valid : valid fr_heap fr_sketch.
Proof. exact (reachable_valid xpinv _ _ _ fr_run eq_refl). Qed.

(** ** C21: every solver stops within its budget *)

(** any arithmetic: gradient descent makes [n <= max] steps, whatever the outcome *)
Theorem C21_gradient_descent : forall {F} {A : Arith F} s P (h h' : heap F) r, gd_run s P h = (h', r) ->
  exists n hn, n <= N.to_nat (gd_max P) /\ gd_steps s h n hn /\ (forall k, r = Val (SOk k) -> k = n).
Proof. exact @C21_gd_lemma. Qed.
(** BFGS: n accepted steps, and at most one failed line search more than that; the loop bound used
    in the model is never the reason for stopping, and a larger one gives the same run *)
Theorem C21_bfgs : forall {F} {A : Arith F} s P (h h' : heap F) r, bfgs_run s P h = (h', r) ->
  exists n k b hn d H, (N.of_nat n <= bf_max P)%N /\ k <= n + 1 /\ bfgs_steps s h n k b hn d H /\
    (forall it, r = Val (SOk it) -> it = N.of_nat n).
Proof. exact @C21_bfgs_lemma. Qed.
Theorem C21_bfgs_any_fuel : forall {F} {A : Arith F} s P (h : heap F) f, 2 * N.to_nat (bf_max P) + 2 <= f ->
  bfgs_loop s P f 0 (get_data h s) (mident (get_n_dofs h s)) false h = bfgs_run s P h.
Proof. exact @C21_bfgs_fuel_lemma. Qed.
Theorem C21_never_out_of_fuel : forall {F} {A : Arith F} pinv sol s (h : heap F),
  snd (solve pinv sol s h) <> Val (SErr OutOfFuel).
Proof. exact @C21_fuel_lemma. Qed.
Theorem C21_gauss_newton : forall {F} {A : Arith F} pinv s P (h h' : heap F) r, gn_run pinv s P h = (h', r) ->
  exists n l hn, n <= N.to_nat (gn_max P) /\ nls_steps pinv s gn_normal (gn_eps P) (gn_step P) h n l hn /\
    (forall k, r = Val (SOk k) -> k = n /\ h' = hn).
Proof. exact @C21_gn_lemma. Qed.
Theorem C21_levenberg_marquardt : forall {F} {A : Arith F} pinv s P (h h' : heap F) r, lm_run pinv s P h = (h', r) ->
  exists n l hn, n <= N.to_nat (lm_max P) /\ nls_steps pinv s (lm_normal (lm_beta P)) (lm_eps P) (lm_step P) h n l hn /\
    (forall k, r = Val (SOk k) -> k = n /\ h' = hn).
Proof. exact @C21_lm_lemma. Qed.
(** the line search looks at no more than 15 step lengths *)
Theorem C21_line_search : forall {F} {A : Arith F} s d g (h h' : heap F) r, valid h s ->
  line_search_wolfe s d g h = (h', Val r) ->
  match r with
  | LOk alpha => exists k, k < 15 /\ trial h s d (vdot g d) k alpha
  | LErr SearchFailed => exists a, trial h s d (vdot g d) 14 a
  | LErr NotDescentDirection => h' = h
  end.
Proof. exact @C21_search_lemma. Qed.
Example C21_example : forall L, let A := ArithF L in
  valid h26 par_sketch /\ snd (gd_run par_sketch gd_default h26) = Val (SErr (LineSearch SearchFailed)) /\
  snd (bfgs_run par_sketch bfgs_default h27) = Val (SOk 0%N) /\
  snd (gn_run pinv23 fix_sketch (gn_with_params 100 one (lit64 10 0)) h23) = Val (SOk 1).
Proof. intros L A. split; [apply par_valid; reflexivity|]. vm_compute. auto. Qed.

(** ** C22: what Ok means *)
Theorem C22_gradient_descent : forall {F} {A : Arith F} s P (h h' : heap F) n, valid h s ->
  gd_run s P h = (h', Val (SOk n)) ->
  flt (get_loss h' s) (gd_min_loss P) = true \/
  (exists g, snd (get_gradient s h') = Val g /\ flt (vnorm g) (gd_min_grad P) = true) \/
  n = N.to_nat (gd_max P).
Proof. exact @C22_gd_lemma. Qed.
Theorem C22_bfgs : forall {F} {A : Arith F} s P (h h' : heap F) n, valid h s ->
  bfgs_run s P h = (h', Val (SOk n)) ->
  flt (get_loss h' s) (bf_min_loss P) = true \/
  (exists g, snd (get_gradient s h') = Val g /\ flt (vnorm_inf g) (bf_grad P) = true) \/
  n = bf_max P.
Proof. exact @C22_bfgs_lemma. Qed.
Example C22_example : forall L, let A := ArithF L in let h := fix_heap (lit64 3 0) (lit64 4 0) (lit64 1 0) (lit64 5 1) in
  valid h fix_sketch /\ snd (gd_run fix_sketch gd_default h) = Val (SOk 1) /\
  snd (bfgs_run fix_sketch bfgs_default h) = Val (SOk 1%N) /\ SFltb (lit64 1 0) (get_loss h fix_sketch) = true.
Proof. intros L A h. split; [apply fix_valid; reflexivity|]. vm_compute. auto. Qed.

(** ** C23: Ok from Gauss-Newton or Levenberg-Marquardt does not mean a small loss *)

(** The loss compared with min_loss is the one before the last step; with a step size above 2
    that step can make it larger.  Binary64, any libm; the pseudo-inverse is the true one. *)
Theorem C23_gauss_newton_refuted : forall L, let A := ArithF L in
  exists pinv P h s h' n J q, let Q := gn_with_params P one (lit64 10 0) in
  valid h s /\ finite_data h s /\ gn_run pinv s Q h = (h', Val (SOk n)) /\ n < N.to_nat P /\
  snd (get_jacobian s h) = Val J /\ pinv (gn_normal 2 J) (gn_eps Q) = PInv q /\ penrose2 L (gn_normal 2 J) q /\
  SFltb one (get_loss h' s) = true.
Proof. exact C23_gn_witness. Qed.
Theorem C23_levenberg_marquardt_refuted : forall L, let A := ArithF L in
  exists pinv P h s h' n J q, let Q := lm_with_params P one (lit64 20 0) one in
  valid h s /\ finite_data h s /\ lm_run pinv s Q h = (h', Val (SOk n)) /\ n < N.to_nat P /\
  snd (get_jacobian s h) = Val J /\ pinv (lm_normal one 2 J) (lm_eps Q) = PInv q /\ penrose2 L (lm_normal one 2 J) q /\
  SFltb one (get_loss h' s) = true.
Proof. exact C23_lm_witness. Qed.
(** What holds: the loss before the last step was not above min_loss.  Missing: the loss of the
    returned sketch. *)
Theorem C23_gauss_newton_partial : forall {F} {A : Arith F} pinv s P (h h' : heap F) n,
  gn_run pinv s P h = (h', Val (SOk n)) ->
  exists l, nls_steps pinv s gn_normal (gn_eps P) (gn_step P) h n l h' /\
    (n = N.to_nat (gn_max P) \/ fgt l (gn_min_loss P) = false).
Proof. exact @C23_gn_lemma. Qed.
Theorem C23_levenberg_marquardt_partial : forall {F} {A : Arith F} pinv s P (h h' : heap F) n,
  lm_run pinv s P h = (h', Val (SOk n)) ->
  exists l, nls_steps pinv s (lm_normal (lm_beta P)) (lm_eps P) (lm_step P) h n l h' /\
    (n = N.to_nat (lm_max P) \/ fgt l (lm_min_loss P) = false).
Proof. exact @C23_lm_lemma. Qed.
Example C23_example : forall L, let A := ArithF L in
  snd (lm_run pinv23_lm fix_sketch (lm_with_params 100 one (lit64 1 0) one) h23) = Val (SOk 1).
Proof. intros L A. vm_compute. reflexivity. Qed.

(** ** C24: the line search *)
Theorem C24_accepted : forall {F} {A : Arith F} s d g (h h' : heap F) alpha, valid h s ->
  line_search_wolfe s d g h = (h', Val (LOk alpha)) ->
  fge (vdot g d) f0 = false /\
  at_point h s (vadd (get_data h s) (vscale alpha d)) h' /\
  fle (get_loss h' s) (get_loss h s +f flit 1 4 *f alpha *f vdot g d) = true /\
  (exists g', snd (get_gradient s h') = Val g' /\ fge (vdot g' d) (flit 9 1 *f vdot g d) = true) /\
  exists k, k < 15 /\ trial h s d (vdot g d) k alpha.
Proof. exact @C24_ok_lemma. Qed.
Theorem C24_rejected : forall {F} {A : Arith F} s d g (h : heap F), valid h s ->
  (snd (line_search_wolfe s d g h) = Val (LErr NotDescentDirection) <-> fge (vdot g d) f0 = true) /\
  (fge (vdot g d) f0 = true -> line_search_wolfe s d g h = (h, Val (LErr NotDescentDirection))).
Proof. exact @C24_rejected_lemma. Qed.
(** a failed search leaves the sketch at the 15th trial point, where a Wolfe condition fails *)
Theorem C24_failed : forall {F} {A : Arith F} s d g (h h' : heap F), valid h s ->
  line_search_wolfe s d g h = (h', Val (LErr SearchFailed)) ->
  exists a, trial h s d (vdot g d) 14 a /\ at_point h s (vadd (get_data h s) (vscale a d)) h' /\
    (sufficient_decrease h s d (vdot g d) a false \/ curvature h s d (vdot g d) a false).
Proof. exact @C24_failed_lemma. Qed.
(** exact arithmetic, in real numbers *)
Theorem C24_exact : forall s d g (h h' : heap xR) alpha, valid h s -> finite_data h s -> all_con_finite h s ->
  line_search_wolfe s (map Fin d) (map Fin g) h = (h', Val (LOk alpha)) ->
  exists a l l' g', alpha = Fin a /\ (0 < a)%R /\ (exists i j, i + j < 15 /\ a = ((3 / 2) ^ i * (/ 2) ^ j)%R) /\
    get_data h' s = map Fin (map2 (fun x y => (x + a * y)%R) (map vx (get_data h s)) d) /\
    get_loss h s = Fin l /\ get_loss h' s = Fin l' /\ snd (get_gradient s h') = Val (map Fin g') /\
    (dotL g d < 0)%R /\ (l' <= l + / 10000 * a * dotL g d)%R /\ (9 / 10 * dotL g d <= dotL g' d)%R.
Proof. exact C24_exact_lemma. Qed.
Example C24_example : forall L, let A := ArithF L in
  let h := fix_heap (lit64 3 0) (lit64 4 0) (lit64 1 0) (lit64 5 1) in
  valid h fix_sketch /\
  snd (line_search_wolfe fix_sketch [lit64 (-8) 0; lit64 (-14) 0] [lit64 2 0; lit64 35 1] h) = Val (LOk (lit64 25 2)) /\
  snd (line_search_wolfe fix_sketch [lit64 8 0; lit64 14 0] [lit64 2 0; lit64 35 1] h) = Val (LErr NotDescentDirection).
Proof. intros L A h. split; [apply fix_valid; reflexivity|]. vm_compute. auto. Qed.
Example C24_exact_example : exists h' alpha,
  line_search_wolfe fx_sketch (map Fin (negL (subL (dat fx_sketch fx_heap) (T fx_sketch fx_fixes))))
    (map Fin (subL (dat fx_sketch fx_heap) (T fx_sketch fx_fixes))) fx_heap = (h', Val (LOk alpha)).
Proof.
  destruct (fix_search fx_sketch fx_heap fx_fixes fx_valid fx_only fx_finite_data fx_heap) as (h' & E & _).
  - apply (ok0 _ _ fx_valid fx_finite_data).
  - unfold dotL. simpl. unfold subL, dat, T. simpl. lra.
  - eauto.
Qed.

(** ** C25: gradient descent never increases the loss *)
Theorem C25_gradient_descent_monotone : forall pinv s P (h h' : heap xR), valid h s -> finite_data h s -> all_con_finite h s ->
  solve pinv (GradientBased P) s h = (h', Val (SOk tt)) ->
  exists n l l', gd_run s P h = (h', Val (SOk n)) /\ get_loss h s = Fin l /\ get_loss h' s = Fin l' /\
    (l' <= l)%R /\ (0 < n -> (l' < l)%R).
Proof. exact C25_lemma. Qed.
Example C25_example : exists h' n, gd_run fx_sketch gd_default fx_heap = (h', Val (SOk n)) /\
  solve xpinv (GradientBased gd_default) fx_sketch fx_heap = (h', Val (SOk tt)).
Proof.
  destruct (C34_gd_lemma fx_sketch fx_heap fx_fixes fx_valid fx_only fx_finite_data gd_default) as (h' & n & E & _).
  - reflexivity.
  - left. unfold gd_default, bfgs_default; cbn [gd_min_loss bf_min_loss]; rewrite f0_R; apply lt_true; apply Rdiv_lt_0_compat; [lra | apply pow_lt; lra].
  - exists h', n. split; [exact E|]. simpl. unfold mbind. rewrite E. reflexivity.
Qed.

(** ** C26: a failed solve does not restore the sketch *)
Theorem C26_gradient_descent_refuted : forall L, let A := ArithF L in forall pinv, exists h s h',
  valid h s /\ finite_data h s /\
  solve pinv (GradientBased gd_default) s h = (h', Val (SErr (LineSearch SearchFailed))) /\
  SFltb (get_loss h s) (get_loss h' s) = true /\
  forall n hn, gd_steps s h n hn -> get_data h' s <> get_data hn s.
Proof. exact C26_gd_witness. Qed.
Theorem C26_bfgs_refuted : forall L, let A := ArithF L in forall pinv, exists h s h',
  valid h s /\ finite_data h s /\
  solve pinv (BFGS bfgs_default) s h = (h', Val (SErr FailedTwice)) /\
  forall n k b hn d H, bfgs_steps s h n k b hn d H -> get_data h' s <> d.
Proof. exact C26_bfgs_witness. Qed.
(** What holds: only an exhausted search leaves the sketch elsewhere, and then at its last trial point. *)
Theorem C26_gradient_descent_partial : forall {F} {A : Arith F} pinv s P (h h' : heap F) e, valid h s ->
  solve pinv (GradientBased P) s h = (h', Val (SErr e)) ->
  exists n hn g le, gd_steps s h n hn /\ snd (get_gradient s hn) = Val g /\ e = LineSearch le /\
    match le with
    | NotDescentDirection => get_data h' s = get_data hn s
    | SearchFailed => exists a, trial hn s (vneg g) (vdot g (vneg g)) 14 a /\
        get_data h' s = vadd (get_data hn s) (vscale a (vneg g))
    end.
Proof. exact @C26_gd_lemma. Qed.
Theorem C26_bfgs_partial : forall {F} {A : Arith F} pinv s P (h h' : heap F) e, valid h s ->
  solve pinv (BFGS P) s h = (h', Val (SErr e)) ->
  exists n k b hn d H g, bfgs_steps s h n k b hn d H /\ snd (get_gradient s hn) = Val g /\
    match e with
    | NonFiniteDirection | LineSearch NotDescentDirection => get_data h' s = get_data hn s
    | FailedTwice => b = true /\ exists a, trial hn s (mvec (mneg H) g) (vdot g (mvec (mneg H) g)) 14 a /\
        get_data h' s = vadd (get_data hn s) (vscale a (mvec (mneg H) g))
    | _ => False
    end.
Proof. exact @C26_bfgs_lemma. Qed.
Example C26_example : forall L, let A := ArithF L in valid h26b fix_sketch /\
  snd (solve nopinv (BFGS bfgs_default) fix_sketch h26b) = Val (SErr FailedTwice).
Proof. intros L A. split; [apply fix_valid; reflexivity|]. vm_compute. reflexivity. Qed.

(** ** C27: BFGS can return Ok with a larger loss *)
Theorem C27_refuted : forall L, let A := ArithF L in forall pinv, exists h s h',
  valid h s /\ finite_data h s /\ solve pinv (BFGS bfgs_default) s h = (h', Val (SOk tt)) /\
  SFltb (get_loss h s) (get_loss h' s) = true.
Proof. exact C27_witness. Qed.
(** What holds (exact arithmetic): without a failed line search the loss does not increase. *)
Theorem C27_partial : forall s P (h h' : heap xR) it, valid h s -> finite_data h s -> all_con_finite h s ->
  bfgs_run s P h = (h', Val (SOk it)) ->
  (forall n k b hn d H, bfgs_steps s h n k b hn d H -> k = 0) ->
  exists l l', get_loss h s = Fin l /\ get_loss h' s = Fin l' /\ (l' <= l)%R /\ ((0 < it)%N -> (l' < l)%R).
Proof. exact C27_lemma. Qed.

Example C27_example : (forall n k b hn d H, bfgs_steps fx_sketch fx_heap n k b hn d H -> k = 0) /\
  exists h' it, bfgs_run fx_sketch bfgs_default fx_heap = (h', Val (SOk it)).
Proof.
  split; [exact (fix_no_failure fx_sketch fx_heap fx_fixes fx_valid fx_only fx_finite_data)|].
  destruct (C34_bfgs_lemma fx_sketch fx_heap fx_fixes fx_valid fx_only fx_finite_data bfgs_default) as (h' & n & E & _); eauto.
  - reflexivity.
  - left. unfold bfgs_default; cbn [bf_min_loss]; rewrite f0_R; apply lt_true; apply Rdiv_lt_0_compat; [lra | apply pow_lt; lra].
Qed.

(** ** C28: BFGS without failed searches *)
Theorem C28_positive_definite : forall s (h : heap xR) n b hn d H, valid h s -> finite_data h s -> all_con_finite h s ->
  bfgs_steps s h n 0 b hn d H ->
  get_data hn s = d /\
  exists M, H = map (map Fin) M /\ length M = get_n_dofs h s /\ (forall r, In r M -> length r = get_n_dofs h s) /\
    (forall i j, i < get_n_dofs h s -> j < get_n_dofs h s -> nth j (nth i M []) 0%R = nth i (nth j M []) 0%R) /\
    (forall v, length v = get_n_dofs h s -> (exists x, In x v /\ x <> 0%R) -> (0 < dotL v (map (fun r => dotL r v) M))%R) /\
    forall h1 g, get_gradient s hn = (h1, Val g) -> (exists x, In x g /\ x <> Fin 0) ->
      flt (vdot g (mvec (mneg H) g)) f0 = true.
Proof. exact C28_lemma. Qed.
Theorem C28_secant : forall s (h : heap xR) n b hn d H h1 g alpha h2 h3 h4 g',
  valid h s -> finite_data h s -> all_con_finite h s -> bfgs_steps s h n 0 b hn d H ->
  get_gradient s hn = (h1, Val g) -> line_search_wolfe s (mvec (mneg H) g) g h1 = (h2, Val (LOk alpha)) ->
  set_data s (vadd d (vscale alpha (mvec (mneg H) g))) h2 = (h3, Val tt) -> get_gradient s h3 = (h4, Val g') ->
  let sv := vscale alpha (mvec (mneg H) g) in let y := vsub g' g in
  flt f0 (vdot sv y) = true /\
  (fle (flit 1 16) (fabs (vdot sv y)) = true -> mvec (bfgs_update H sv y (bfgs_sdoty sv y)) y = sv).
Proof. exact C28_secant_lemma. Qed.
Theorem C28_non_descent_only_after_failure : forall s P (h h' : heap xR) e,
  valid h s -> finite_data h s -> all_con_finite h s ->
  flt f0 (bf_grad P) = true -> bfgs_run s P h = (h', Val (SErr (LineSearch e))) ->
  exists n k b hn d H, bfgs_steps s h n k b hn d H /\ 0 < k.
Proof. exact C28_error_lemma. Qed.
(** an accepted first step *)
Example C28_example : exists hn d H, bfgs_steps fx_sketch fx_heap 1 0 false hn d H.
Proof. exact (fix_first_step fx_sketch fx_heap fx_fixes fx_valid fx_only fx_finite_data
  ltac:(unfold dotL; simpl; unfold subL, dat, T; simpl; lra)). Qed.

(** ** C29: solvers only move registered primitives *)
Theorem C29_frame : forall {F} {A : Arith F} pinv sol s (h : heap F), valid h s ->
  let h' := fst (solve pinv sol s h) in
  same_structure h h' /\ forall c, ~ registered s c -> prim_data h' c = prim_data h c.
Proof. exact @C29_lemma. Qed.

Example C29_example : forall L, let A := ArithF L in
  let z := zero in let h := mkHeap [mkPoint one z z z; mkPoint z one z z] [] [] [] [FixPoint 1 one z] in
  let s := mkSketch [(0%N, PPoint 1)] 1%N [0] in
  valid h s /\ finite_data h s /\ ~ registered s (PPoint 0) /\ snd (solve nopinv (BFGS bfgs_default) s h) = Val (SOk tt) /\
  prim_data (fst (solve nopinv (BFGS bfgs_default) s h)) (PPoint 1) = [one; zero].
Proof.
  intros L A z h s.
  assert (R : run nopinv init [NewPoint one z; AddPoint2 z one; Constrain (FixPoint 1 one z)] [RetLoc 0; RetLoc 1; RetLoc 0] (h, s)) by goF.
  assert (V : valid h s) by exact (reachable_valid nopinv _ _ _ R eq_refl).
  split; [exact V|]. split; [apply (finite_iff _ _ (valid_keys _ _ V)); vm_compute; reflexivity|]. split.
  - rewrite (valid_reg _ _ _ V). intros [H|[]]. discriminate.
  - vm_compute. auto.
Qed.

(** ** C30: a solved sketch stays put *)
Theorem C30_gradient_descent : forall {F} {A : Arith F} pinv s P (h h1 : heap F) g, get_gradient s h = (h1, Val g) ->
  gd_max P = 0%N \/ flt (vnorm g) (gd_min_grad P) = true \/ flt (get_loss h s) (gd_min_loss P) = true ->
  solve pinv (GradientBased P) s h = (h1, Val (SOk tt)).
Proof. exact @C30_gd_lemma. Qed.
Theorem C30_bfgs_loss : forall {F} {A : Arith F} pinv s P (h : heap F),
  bf_max P = 0%N \/ flt (get_loss h s) (bf_min_loss P) = true -> solve pinv (BFGS P) s h = (h, Val (SOk tt)).
Proof. exact @C30_bfgs_loss_lemma. Qed.
Theorem C30_bfgs_gradient : forall {F} {A : Arith F} pinv s P (h h1 : heap F) g, get_gradient s h = (h1, Val g) ->
  flt (vnorm_inf g) (bf_grad P) = true ->
  exists h', solve pinv (BFGS P) s h = (h', Val (SOk tt)) /\ (h' = h \/ h' = h1).
Proof. exact @C30_bfgs_grad_lemma. Qed.
(** get_gradient only changes cached gradients, so [h1] above has the data of [h] *)
Theorem C30_same_data : forall {F} {A : Arith F} s (h h1 : heap F) r, get_gradient s h = (h1, r) ->
  forall c, prim_data h1 c = prim_data h c.
Proof. exact @C30_data_lemma. Qed.
(** exact arithmetic, any pseudo-inverse, any parameters, any outcome (Ok, error or panic) *)
Theorem C30_least_squares : forall pinv sol s (h : heap xR), valid h s -> finite_data h s -> all_con_finite h s ->
  (forall k, In k (s_cons s) -> satisfied (cfg_of h) h (getK h k)) ->
  match sol with GaussNewton _ | LevenbergMarquardt _ => True | _ => False end ->
  forall c, prim_data (fst (solve pinv sol s h)) c = prim_data h c.
Proof. exact C30_nls_lemma. Qed.
Example C30_example : forall L, let A := ArithF L in let h := fix_heap one (lit64 2 0) one (lit64 2 0) in
  valid h fix_sketch /\ snd (get_gradient fix_sketch h) = Val [zero; zero] /\
  SFltb (get_loss h fix_sketch) (bf_min_loss bfgs_default) = true /\
  SFltb (vnorm_inf [zero; zero]) (bf_grad bfgs_default) = true.
Proof. intros L A h. split; [apply fix_valid; reflexivity|]. vm_compute. auto. Qed.
Definition st_heap : heap xR := mkHeap [Point2_new (q 1) (q 2)] [] [] [] [FixPoint 0 (q 1) (q 2)].
Definition st_sketch : sketch := mkSketch [(0%N, PPoint 0)] 1%N [0].
Example C30_exact_example : valid st_heap st_sketch /\ finite_data st_heap st_sketch /\ all_con_finite st_heap st_sketch /\
  (forall k, In k (s_cons st_sketch) -> satisfied (cfg_of st_heap) st_heap (getK st_heap k)).
Proof.
  assert (R : run xpinv init [AddPoint2 (q 1) (q 2); Constrain (FixPoint 0 (q 1) (q 2))] [RetLoc 0; RetLoc 0] (st_heap, st_sketch)) by goS.
  assert (V : valid st_heap st_sketch) by exact (reachable_valid xpinv _ _ _ R eq_refl).
  split; [exact V|]. split; [apply (finite_iff _ _ (valid_keys _ _ V)); reflexivity|]. split; [con_finS|].
  intros k [<-|[]]. split; reflexivity.
Qed.

(** ** C31: primitives no constraint depends on do not move *)
Theorem C31_unconstrained_at_rest : forall pinv sol (h : heap xR) s c, valid h s -> finite_data h s -> all_con_finite h s ->
  registered s c -> (forall k, In k (s_cons s) -> ~ In c (deps h (getK h k))) ->
  match sol with GradientBased _ | BFGS _ => True | _ => False end ->
  prim_data (fst (solve pinv sol s h)) c = prim_data h c.
Proof. exact C31_lemma. Qed.
Example C31_example : valid fr_heap fr_sketch /\ finite_data fr_heap fr_sketch /\ all_con_finite fr_heap fr_sketch /\
  registered fr_sketch (PPoint 0) /\ (forall k, In k (s_cons fr_sketch) -> ~ In (PPoint 0) (deps fr_heap (getK fr_heap k))).
Proof.
  split; [exact fr_valid|]. split; [apply (finite_iff _ _ (valid_keys _ _ fr_valid)); reflexivity|]. split; [con_finS|].
  split; [exists 0%N; reflexivity|]. intros k [<-|[]] [H|[]]. discriminate.
Qed.

(** ** C32: data stay finite *)
Theorem C32_finite : forall {F} {A : Arith F} pinv sol s (h : heap F), valid h s -> finite_data h s ->
  finite_data (fst (solve pinv sol s h)) s.
Proof. exact @C32_lemma. Qed.

(** ** C33: the non-finite-gradient error is never returned *)
Theorem C33_refuted : forall L, let A := ArithF L in forall pinv, exists h s k,
  valid h s /\ finite_data h s /\ In k (s_cons s) /\
  (exists t row x, In (t, row) (grad_rows h (getK h k)) /\ In x row /\ x = S754_infinity false) /\
  snd (solve pinv (BFGS bfgs_default) s h) = Panic.
Proof. exact C33_witness. Qed.
Theorem C33_never_reported : forall {F} {A : Arith F} pinv sol s (h : heap F),
  snd (solve pinv sol s h) <> Val (SErr NonFiniteGradient).
Proof. exact @C33_lemma. Qed.
(** What holds: whenever the gradient cannot be computed, BFGS panics. *)
Theorem C33_partial : forall {F} {A : Arith F} pinv s P (h h1 : heap F), get_gradient s h = (h1, Panic) ->
  (0 < bf_max P)%N -> flt (get_loss h s) (bf_min_loss P) = false -> solve pinv (BFGS P) s h = (h1, Panic).
Proof. exact @C33_panic_lemma. Qed.
Example C33_example : forall L, let A := ArithF L in
  snd (get_gradient fix_sketch h33) = Panic /\ SFltb (get_loss h33 fix_sketch) (bf_min_loss bfgs_default) = false.
Proof. intros L A. vm_compute. auto. Qed.

(** ** C34: fixing points takes one step *)
Theorem C34_gradient_descent : forall s (h : heap xR) fixes, valid h s -> only_fixed_points h s fixes -> finite_data h s ->
  forall P, (0 < gd_max P)%N -> flt f0 (gd_min_loss P) = true \/ flt f0 (gd_min_grad P) = true ->
  exists h' n, gd_run s P h = (h', Val (SOk n)) /\
    ((n = 0 /\ forall c, prim_data h' c = prim_data h c) \/
     (n = 1 /\ forall f, In f fixes -> prim_data h' (PPoint (fst f)) = [Fin (fst (snd f)); Fin (snd (snd f))])).
Proof. exact C34_gd_lemma. Qed.
Theorem C34_bfgs : forall s (h : heap xR) fixes, valid h s -> only_fixed_points h s fixes -> finite_data h s ->
  forall P, (0 < bf_max P)%N -> flt f0 (bf_min_loss P) = true \/ flt f0 (bf_grad P) = true ->
  exists h' n, bfgs_run s P h = (h', Val (SOk n)) /\
    ((n = 0%N /\ forall c, prim_data h' c = prim_data h c) \/
     (n = 1%N /\ forall f, In f fixes -> prim_data h' (PPoint (fst f)) = [Fin (fst (snd f)); Fin (snd (snd f))])).
Proof. exact C34_bfgs_lemma. Qed.
Example C34_example : only_fixed_points fx_heap fx_sketch fx_fixes /\ flt f0 (bf_min_loss (@bfgs_default xR _)) = true.
Proof. split; [exact fx_only|]. unfold gd_default, bfgs_default; cbn [gd_min_loss bf_min_loss]; rewrite f0_R; apply lt_true; apply Rdiv_lt_0_compat; [lra | apply pow_lt; lra]. Qed.

Print Assumptions solve_is_run.
Print Assumptions C21_gradient_descent.
Print Assumptions C21_bfgs.
Print Assumptions C21_bfgs_any_fuel.
Print Assumptions C21_never_out_of_fuel.
Print Assumptions C21_gauss_newton.
Print Assumptions C21_levenberg_marquardt.
Print Assumptions C21_line_search.
Print Assumptions C22_gradient_descent.
Print Assumptions C22_bfgs.
Print Assumptions C23_gauss_newton_refuted.
Print Assumptions C23_levenberg_marquardt_refuted.
Print Assumptions C23_gauss_newton_partial.
Print Assumptions C23_levenberg_marquardt_partial.
Print Assumptions C24_accepted.
Print Assumptions C24_rejected.
Print Assumptions C24_failed.
Print Assumptions C24_exact.
Print Assumptions C25_gradient_descent_monotone.
Print Assumptions C26_gradient_descent_refuted.
Print Assumptions C26_bfgs_refuted.
Print Assumptions C26_gradient_descent_partial.
Print Assumptions C26_bfgs_partial.
Print Assumptions C27_refuted.
Print Assumptions C27_partial.
Print Assumptions C28_positive_definite.
Print Assumptions C28_secant.
Print Assumptions C28_non_descent_only_after_failure.
Print Assumptions C29_frame.
Print Assumptions C30_gradient_descent.
Print Assumptions C30_bfgs_loss.
Print Assumptions C30_bfgs_gradient.
Print Assumptions C30_same_data.
Print Assumptions C30_least_squares.
Print Assumptions C31_unconstrained_at_rest.
Print Assumptions C32_finite.
Print Assumptions C33_refuted.
Print Assumptions C33_never_reported.
Print Assumptions C33_partial.
Print Assumptions C34_gradient_descent.
Print Assumptions C34_bfgs.
