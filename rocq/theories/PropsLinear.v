(** * C69, C70: sketches whose constraints are linear in the coordinates *)
From Coq Require Import List ZArith NArith Arith Bool Lia Sorted Reals Lra Floats.SpecFloat.
From Verif Require Import Arith Vec Prim Cons Sketch Solve Api Spec SolverSpec ArithR ArithF ExactSpec LinearSpec
  HeapLemmas SolveLemmas WfLemmas DataLemmas SpecLemmas ExactLemmas GradLemmas LossLemmas RMat SearchLemmas StepLemmas
  ExactRun SolverForms PropsSolver PropsConverge LinearLemmas LinearForms ChainWitness.
Import ListNotations.
Local Open Scope R_scope.

(** ** Concrete sketches *)
(** a point to be fixed at the origin, a second one 2 to the right of it and level with it *)
Definition ln_heap : heap xR :=
  mkHeap [Point2_new (q 1) (q 1); Point2_new (q 0) (q 0)] [mkLine 0%nat 1%nat] [] []
    [FixPoint 0%nat (q 0) (q 0); HorizontalDistance 0%nat 1%nat (q 2); HorizontalLine 0%nat].
Definition ln_sketch : sketch := mkSketch [(0%N, PPoint 0%nat); (1%N, PPoint 1%nat); (2%N, PLine 0%nat)] 3%N [0; 1; 2]%nat.
Example ln_run : run xpinv init [AddPoint2 (q 1) (q 1); AddPoint2 (q 0) (q 0); AddLine 0%nat 1%nat; Constrain (FixPoint 0%nat (q 0) (q 0));
    Constrain (HorizontalDistance 0%nat 1%nat (q 2)); Constrain (HorizontalLine 0%nat)]
  [RetLoc 0; RetLoc 1; RetLoc 0; RetLoc 0; RetLoc 1; RetLoc 2]%nat (ln_heap, ln_sketch).
Proof. goS. Qed.
Example ln_valid : valid ln_heap ln_sketch.
Proof. exact (reachable_valid xpinv _ _ _ ln_run eq_refl). Qed.
Example ln_finite_data : finite_data ln_heap ln_sketch.
Proof. apply (finite_iff _ _ (valid_keys _ _ ln_valid)). reflexivity. Qed.
Example ln_finite : all_con_finite ln_heap ln_sketch.
Proof. con_finS. Qed.
Ltac linS := let k := fresh in let H := fresh in intros k H; simpl in H; repeat (destruct H as [<- | H]; [reflexivity|]); destruct H.
Example ln_linear : linear_sketch ln_heap ln_sketch.
Proof. linS. Qed.
Definition ln_solved : heap xR := fst (set_data ln_sketch (map Fin [0; 0; 2; 0]) ln_heap).
Example ln_at : at_point ln_heap ln_sketch (map Fin [0; 0; 2; 0]) ln_solved.
Proof.
  assert (E : set_data ln_sketch (map Fin [0; 0; 2; 0]) ln_heap = (ln_solved, Val tt)) by reflexivity.
  apply at_frame; [exact ln_valid|]. split; [eapply set_frame, E | eapply C09_set_get; [exact ln_valid | exact E]].
Qed.
Example ln_satisfied : all_satisfied ln_solved ln_sketch.
Proof. intros k H; simpl in H; repeat (destruct H as [<- | H]; [cbn; try split; lra|]); destruct H. Qed.
(** two points 2 apart that are to be both 1 and 3 apart *)
Definition cf_heap : heap xR :=
  mkHeap [Point2_new (q 0) (q 0); Point2_new (q 2) (q 0)] [] [] [] [HorizontalDistance 0%nat 1%nat (q 1); HorizontalDistance 0%nat 1%nat (q 3)].
Definition cf_sketch : sketch := mkSketch [(0%N, PPoint 0%nat); (1%N, PPoint 1%nat)] 2%N [0; 1]%nat.
Example cf_run : run xpinv init [AddPoint2 (q 0) (q 0); AddPoint2 (q 2) (q 0);
    Constrain (HorizontalDistance 0%nat 1%nat (q 1)); Constrain (HorizontalDistance 0%nat 1%nat (q 3))]
  [RetLoc 0; RetLoc 1; RetLoc 0; RetLoc 1]%nat (cf_heap, cf_sketch).
Proof. goS. Qed.
Example cf_valid : valid cf_heap cf_sketch.
Proof. exact (reachable_valid xpinv _ _ _ cf_run eq_refl). Qed.
Example cf_finite_data : finite_data cf_heap cf_sketch.
Proof. apply (finite_iff _ _ (valid_keys _ _ cf_valid)). reflexivity. Qed.
Example cf_finite : all_con_finite cf_heap cf_sketch.
Proof. con_finS. Qed.
Example cf_linear : linear_sketch cf_heap cf_sketch.
Proof. linS. Qed.

(** ** C69: on a linear sketch the loss has no false minima

    Along every line through the current placement the loss is a parabola open upwards, with the
    slope that get_gradient reports. *)
Theorem C69_quadratic : forall (h : heap xR) s, valid h s -> all_con_finite h s -> linear_sketch h s ->
  exists h' g l, get_gradient s h = (h', Val (map Fin g)) /\ length g = get_n_dofs h s /\ get_loss h s = Fin l /\
    forall d, length d = get_n_dofs h s -> exists q, 0 <= q /\
      forall t, get_loss (moved h s d t) s = Fin (l + t * dotL g d + t * t * q).
Proof. exact linear_quadratic. Qed.
(** Where the gradient vanishes no placement of the primitives has a smaller loss; if the
    constraints can be satisfied at all, they are. *)
Theorem C69_no_false_minimum : forall (h : heap xR) s h1 g x hx,
  valid h s -> finite_data h s -> all_con_finite h s -> linear_sketch h s ->
  get_gradient s h = (h1, Val g) -> (forall a, In a g -> a = Fin 0) -> at_point h s (map Fin x) hx ->
  fle (get_loss h s) (get_loss hx s) = true /\ (all_satisfied hx s -> all_satisfied h s).
Proof. exact C69_no_false_minimum_lemma. Qed.
(** The gradient bounds the loss from below everywhere, and in a sketch that can be solved the
    loss is half the gradient times the way from any solution. *)
Theorem C69_convex : forall (h : heap xR) s h1 g x hx,
  valid h s -> finite_data h s -> all_con_finite h s -> linear_sketch h s ->
  get_gradient s h = (h1, Val (map Fin g)) -> at_point h s (map Fin x) hx ->
  exists l lx, get_loss h s = Fin l /\ get_loss hx s = Fin lx /\ l + dotL g (minusL x (map vx (get_data h s))) <= lx.
Proof. exact C69_convex_lemma. Qed.
Theorem C69_gap : forall (h : heap xR) s h1 g x hx,
  valid h s -> finite_data h s -> all_con_finite h s -> linear_sketch h s ->
  get_gradient s h = (h1, Val (map Fin g)) -> at_point h s (map Fin x) hx -> all_satisfied hx s ->
  get_loss h s = Fin (/ 2 * dotL g (minusL (map vx (get_data h s)) x)).
Proof. exact C69_gap_lemma. Qed.
(** an unsolved sketch that can be solved *)
Example C69_example : valid ln_heap ln_sketch /\ finite_data ln_heap ln_sketch /\ all_con_finite ln_heap ln_sketch /\
  linear_sketch ln_heap ln_sketch /\ at_point ln_heap ln_sketch (map Fin [0; 0; 2; 0]) ln_solved /\ all_satisfied ln_solved ln_sketch /\
  get_loss ln_heap ln_sketch = Fin 6 /\ exists h1, get_gradient ln_sketch ln_heap = (h1, Val (map Fin [4; 2; -3; -1])).
Proof.
  split; [exact ln_valid|]. split; [exact ln_finite_data|]. split; [exact ln_finite|]. split; [exact ln_linear|].
  split; [exact ln_at|]. split; [exact ln_satisfied|]. split.
  - cbv -[IZR Rplus Rmult Ropp Rminus Rdiv Rinv]. f_equal. field.
  - eexists. cbv -[IZR Rplus Rmult Ropp Rminus Rdiv Rinv]. apply f_equal2; [reflexivity|]. repeat f_equal; field.
Qed.
(** a contradictory sketch with vanishing gradient and positive loss *)
Example C69_conflict_example : valid cf_heap cf_sketch /\ finite_data cf_heap cf_sketch /\ all_con_finite cf_heap cf_sketch /\
  linear_sketch cf_heap cf_sketch /\ get_loss cf_heap cf_sketch = Fin 1 /\
  exists h1, get_gradient cf_sketch cf_heap = (h1, Val (map Fin [0; 0; 0; 0])).
Proof.
  split; [exact cf_valid|]. split; [exact cf_finite_data|]. split; [exact cf_finite|]. split; [exact cf_linear|]. split.
  - cbv -[IZR Rplus Rmult Ropp Rminus Rdiv Rinv]. f_equal. field.
  - eexists. cbv -[IZR Rplus Rmult Ropp Rminus Rdiv Rinv]. apply f_equal2; [reflexivity|]. repeat f_equal; field.
Qed.

(** ** C70: the line-search solvers do not solve every solvable linear sketch

    A chain of 90 points with horizontal distances, anchored at one end, stops both of them.
    Binary64, any libm. *)
Theorem C70_refuted : forall L, let A := ArithF L in
  forall (pinv : mat spec_float -> spec_float -> pinv_res (mat spec_float)), exists os rs h s,
  run pinv init os rs (h, s) /\ linear_sketch h s /\ finite_data h s /\
  (exists x hx, at_point h s x hx /\ get_loss hx s = S754_zero false) /\
  snd (solve pinv (GradientBased gd_default) s h) = Val (SErr (LineSearch SearchFailed)) /\
  snd (solve pinv (BFGS bfgs_default) s h) = Val (SErr FailedTwice).
Proof. exact C70_witness. Qed.
(** When the search fails (exact arithmetic).  With [m] the slope and [q] the curvature along a
    descent direction [d], the minimum along it is at step length m / 2q.  The search accepts
    step lengths from m / 20q to 0.9999 m / q, and reaches one exactly if that interval meets
    what 14 halvings or 14 increases by half can reach. *)
Theorem C70_line_search : forall (h : heap xR) s h1 g d l l1,
  valid h s -> finite_data h s -> all_con_finite h s -> linear_sketch h s ->
  get_gradient s h = (h1, Val (map Fin g)) -> length d = get_n_dofs h s -> dotL g d < 0 ->
  get_loss h s = Fin l -> get_loss (moved h s d 1) s = Fin l1 ->
  let m := - dotL g d in let q := l1 - l + m in
  let reachable := q <= 9999 / 10000 * m * 2 ^ 14 /\ m <= 20 * ((3 / 2) ^ 14 * q) in
  0 < q /\
  (reachable -> exists h' a, line_search_wolfe s (map Fin d) (map Fin g) h = (h', Val (LOk (Fin a))) /\
     m <= 20 * (a * q) /\ a * q <= 9999 / 10000 * m) /\
  (~ reachable -> exists h', line_search_wolfe s (map Fin d) (map Fin g) h = (h', Val (LErr SearchFailed))).
Proof. exact C70_search_lemma. Qed.
(** What holds: accepted steps of gradient descent never get farther from any solution, and Ok
    before the budget runs out means a small loss. *)
Theorem C70_closer_partial : forall s (h0 : heap xR) x hx, valid h0 s -> finite_data h0 s -> all_con_finite h0 s ->
  linear_sketch h0 s -> at_point h0 s (map Fin x) hx -> all_satisfied hx s ->
  forall n h, gd_steps s h0 n h -> dist2 (map vx (get_data h s)) x <= dist2 (map vx (get_data h0 s)) x.
Proof. intros s h0 x hx V FD CF LS Hx Sx n h H. exact (proj2 (gd_steps_closer s h0 x hx V FD CF LS Hx Sx n h H)). Qed.
Theorem C70_ok_partial : forall s (h0 : heap xR) x hx, valid h0 s -> finite_data h0 s -> all_con_finite h0 s ->
  linear_sketch h0 s -> at_point h0 s (map Fin x) hx -> all_satisfied hx s ->
  forall P h' n lo e, gd_run s P h0 = (h', Val (SOk n)) -> gd_min_loss P = Fin lo -> gd_min_grad P = Fin e ->
  exists l', get_loss h' s = Fin l' /\ dist2 (map vx (get_data h' s)) x <= dist2 (map vx (get_data h0 s)) x /\
    (l' < lo \/ l' <= / 2 * e * sqrt (dist2 (map vx (get_data h0 s)) x) \/ n = N.to_nat (gd_max P)).
Proof. exact gd_run_bound. Qed.

Example fx_linear : linear_sketch fx_heap fx_sketch.
Proof. linS. Qed.
Definition fx_solved : heap xR := fst (set_data fx_sketch (map Fin [5; 2; 0; 0]) fx_heap).
(** both branches of the search theorem: the point 4 away from its target, along the gradient
    and along a direction 100000 times shorter; and a run that returns Ok *)
Example C70_search_example : valid (tri_seq 0) tri_sketch /\ finite_data (tri_seq 0) tri_sketch /\ all_con_finite (tri_seq 0) tri_sketch /\
  linear_sketch (tri_seq 0) tri_sketch /\
  (exists h1, get_gradient tri_sketch (tri_seq 0) = (h1, Val (map Fin [12; 0]))) /\
  get_loss (tri_seq 0) tri_sketch = Fin 24 /\
  (forall u, get_loss (moved (tri_seq 0) tri_sketch [- u; 0] 1) tri_sketch = Fin (24 - 12 * u + 3 / 2 * (u * u))) /\
  (let m := 12 in let q := 3 / 2 in q <= 9999 / 10000 * m * 2 ^ 14 /\ m <= 20 * ((3 / 2) ^ 14 * q)) /\
  (let u := / 100000 in let m := 12 * u in let q := 3 / 2 * (u * u) in ~ m <= 20 * ((3 / 2) ^ 14 * q)).
Proof.
  split; [exact tri_valid|]. split; [exact tri_finite_data|]. split; [exact tri_finite|]. split; [linS|].
  split; [eexists; rewrite tri_heap0; cbv -[IZR Rplus Rmult Ropp Rminus Rdiv Rinv]; apply f_equal2; [reflexivity|]; repeat f_equal; field|].
  split; [rewrite tri_heap0; cbv -[IZR Rplus Rmult Ropp Rminus Rdiv Rinv]; f_equal; field|].
  split; [intros u; rewrite tri_heap0; cbv -[IZR Rplus Rmult Ropp Rminus Rdiv Rinv]; f_equal; field|].
  split; cbv zeta; [split; simpl; lra|]. simpl. lra.
Qed.
Example C70_partial_example : valid fx_heap fx_sketch /\ finite_data fx_heap fx_sketch /\ all_con_finite fx_heap fx_sketch /\
  linear_sketch fx_heap fx_sketch /\ at_point fx_heap fx_sketch (map Fin [5; 2; 0; 0]) fx_solved /\ all_satisfied fx_solved fx_sketch /\
  exists h' n, gd_run fx_sketch gd_default fx_heap = (h', Val (SOk n)).
Proof.
  split; [exact fx_valid|]. split; [exact fx_finite_data|]. split; [exact fx_finite|]. split; [exact fx_linear|].
  split; [|split].
  - assert (E : set_data fx_sketch (map Fin [5; 2; 0; 0]) fx_heap = (fx_solved, Val tt)) by reflexivity.
    apply at_frame; [exact fx_valid|]. split; [eapply set_frame, E | eapply C09_set_get; [exact fx_valid | exact E]].
  - intros k H; simpl in H; repeat (destruct H as [<- | H]; [cbn; try split; lra|]); destruct H.
  - destruct C25_example as (h' & n & E & _). eauto.
Qed.

Print Assumptions C69_quadratic.
Print Assumptions C69_no_false_minimum.
Print Assumptions C69_convex.
Print Assumptions C69_gap.
Print Assumptions C70_refuted.
Print Assumptions C70_line_search.
Print Assumptions C70_closer_partial.
Print Assumptions C70_ok_partial.
