(** * C62 and C63, and more about C28 and C31: what a solver run moves *)
From Coq Require Import List ZArith NArith Arith Bool Lia Sorted Reals Lra Floats.SpecFloat.
From Verif Require Import Arith Vec Prim Cons Sketch Solve Api Spec SolverSpec ArithR ArithF ExactSpec MotionSpec
  HeapLemmas SolveLemmas BookLemmas WfLemmas DataLemmas SpecLemmas ExactLemmas RMat NlsMat UpdateLemmas MotionLemmas
  NlsDescent MotionExamples PropsSolver.
Import ListNotations.
Local Open Scope R_scope.

(** ** A sketch with two points at a horizontal distance of 3 that should be 1, and a third point *)
Definition hd_heap : heap xR :=
  mkHeap [Point2_new (q 0) (q 0); Point2_new (q 3) (q 0); Point2_new (q 7) (q 7)] [] [] [] [HorizontalDistance 0%nat 1%nat (q 1)].
Definition hd_sketch : sketch := mkSketch [(0%N, PPoint 0%nat); (1%N, PPoint 1%nat); (2%N, PPoint 2%nat)] 3%N [0%nat].

Definition hd_normal : list (list R) :=
  [[4; 0; -4; 0; 0; 0]; [0; 0; 0; 0; 0; 0]; [-4; 0; 4; 0; 0; 0]; [0; 0; 0; 0; 0; 0]; [0; 0; 0; 0; 0; 0]; [0; 0; 0; 0; 0; 0]].
Ltac eqs := repeat match goal with |- _ :: _ = _ :: _ => f_equal | |- Fin _ = Fin _ => f_equal end; try reflexivity; try lra.
Lemma hd_trace : trace hd_normal = 8.
Proof. cbv -[IZR Rplus Rmult Ropp Rminus]. lra. Qed.
Lemma hd_pinv eps : line_pinv (map (map Fin) hd_normal) eps = PInv (map (map (fun x => Fin (x / 64))) hd_normal).
Proof.
  rewrite line_pinv_val; rewrite hd_trace; [|lra|].
  - replace (8 * 8) with 64 by ring. reflexivity.
  - cbv -[IZR Rplus Rmult Ropp Rminus]. eqs.
Qed.
Lemma hd_solve : exists h', solve line_pinv (one_step None (Fin 0) (Fin 0) 1) hd_sketch hd_heap = (h', Val (SOk tt)) /\
  get_data h' hd_sketch = map Fin [1/2; 0; 5/2; 0; 7; 7].
Proof.
  set (r := solve _ _ _ _). pattern r. set (P := fun _ => _). unfold r. clear r.
  cbv -[IZR Rplus Rmult Ropp Rminus Rinv Rdiv line_pinv P].
  match goal with |- context [line_pinv ?m ?e] => replace m with (map (map Fin) hd_normal) end.
  2:{ cbv -[IZR Rplus Rmult Ropp Rminus Rdiv]. eqs. }
  rewrite hd_pinv. cbv -[IZR Rplus Rmult Ropp Rminus Rinv Rdiv P]. unfold P.
  eexists. split; [reflexivity|]. cbv -[IZR Rplus Rmult Ropp Rminus Rinv Rdiv]. eqs.
Qed.
Example hd_run : run xpinv init [AddPoint2 (q 0) (q 0); AddPoint2 (q 3) (q 0); AddPoint2 (q 7) (q 7); Constrain (HorizontalDistance 0%nat 1%nat (q 1))]
  [RetLoc 0%nat; RetLoc 1%nat; RetLoc 2%nat; RetLoc 0%nat] (hd_heap, hd_sketch).
Proof. goS. Qed.
Example hd_valid : valid hd_heap hd_sketch.
Proof. exact (reachable_valid xpinv _ _ _ hd_run eq_refl). Qed.
Example hd_finite_data : finite_data hd_heap hd_sketch.
Proof. apply (finite_iff _ _ (valid_keys _ _ hd_valid)). reflexivity. Qed.
Example hd_finite : all_con_finite hd_heap hd_sketch.
Proof. con_finS. Qed.

(** ** C28: the matrix kept by BFGS is updated by the textbook formula
    H' = (I - s y^T / c) H (I - y s^T / c) + s s^T / c,
    where c is s.y, increased by 1e-6 when it is within 1e-16 of zero. *)
Theorem C28_textbook_update : forall n M s y, symmetric n M -> length s = n -> length y = n ->
  exists c M', c <> 0 /\
    (/ 10000000000000000 <= Rabs (dotL s y) -> c = dotL s y) /\
    (Rabs (dotL s y) < / 10000000000000000 -> c = dotL s y + / 1000000) /\
    bfgs_update (map (map Fin) M) (map Fin s) (map Fin y) (bfgs_sdoty (map Fin s) (map Fin y)) = map (map Fin) M' /\
    symmetric n M' /\
    forall x v, length x = n -> length v = n ->
      dotL x (mulR M' v) =
        dotL (map2 Rminus x (map (Rmult (dotL s x / c)) y)) (mulR M (map2 Rminus v (map (Rmult (dotL s v / c)) y)))
        + dotL s x * dotL s v / c.
Proof. exact C28_update_lemma. Qed.
Example C28_update_example : symmetric 2 [[2; 1]; [1; 3]] /\ dotL [1; 0] [2; 5] = 2.
Proof.
  split; [|unfold dotL; simpl; lra]. split; [reflexivity|]. split; [repeat constructor|].
  intros [|x0 [|x1 [|]]] [|v0 [|v1 [|]]]; try discriminate. intros _ _. unfold mulR, dotL. simpl. ring.
Qed.

(** ** C31 for every solver *)
Theorem C31_every_solver : forall pinv sol (h : heap xR) s c, exact_pinv pinv -> finite_steps sol ->
  valid h s -> finite_data h s -> all_con_finite h s -> registered s c ->
  (forall k, In k (s_cons s) -> ~ In c (deps h (getK h k))) ->
  prim_data (fst (solve pinv sol s h)) c = prim_data h c.
Proof. exact C31_all_lemma. Qed.
(** the third point stays while the other two are moved *)
Example C31_every_solver_example : exact_pinv line_pinv /\ finite_steps (one_step None (Fin 0) (Fin 0) 1) /\
  valid hd_heap hd_sketch /\ finite_data hd_heap hd_sketch /\ all_con_finite hd_heap hd_sketch /\
  registered hd_sketch (PPoint 2%nat) /\ (forall k, In k (s_cons hd_sketch) -> ~ In (PPoint 2%nat) (deps hd_heap (getK hd_heap k))) /\
  exists h', solve line_pinv (one_step None (Fin 0) (Fin 0) 1) hd_sketch hd_heap = (h', Val (SOk tt)) /\
    get_data h' hd_sketch = map Fin [1/2; 0; 5/2; 0; 7; 7].
Proof.
  split; [exact line_pinv_exact|]. split; [reflexivity|]. split; [exact hd_valid|]. split; [exact hd_finite_data|].
  split; [exact hd_finite|]. split; [exists 2%N; reflexivity|].
  split; [intros k [<-|[]] [H|[H|[]]]; discriminate|]. exact hd_solve.
Qed.

(** ** C62: the centre of a group of points that nothing ties down stays where it is *)
Theorem C62_centre_of_floating_group : forall pinv sol (h : heap xR) s W, exact_pinv pinv -> finite_steps sol ->
  valid h s -> finite_data h s -> all_con_finite h s -> floating h s W ->
  sum_x (fst (solve pinv sol s h)) W = sum_x h W /\ sum_y (fst (solve pinv sol s h)) W = sum_y h W.
Proof. exact C62_lemma. Qed.
(** the two points of the example (the run above moves both) *)
Example C62_example : floating hd_heap hd_sketch [0%nat; 1%nat] /\ sum_x hd_heap [0%nat; 1%nat] = 3.
Proof.
  split; [|unfold sum_x; simpl; lra]. split; [repeat constructor; simpl; intuition; discriminate|].
  split; [intros l [<-|[<-|[]]]; [exists 0%N | exists 1%N]; reflexivity|].
  intros k [<-|[]]. right. split; [reflexivity|]. intros l [H|[H|[]]]; inversion H; simpl; auto.
Qed.

(** ** C63: Gauss-Newton and Levenberg-Marquardt step in a descent direction of the sum of squared losses *)
(** A step moves the data along a fixed direction d scaled by the step size.  The slope of half the
    sum of squares along d is not positive, and it is zero only for d = 0. *)
Theorem C63_descent_direction : forall pinv damping m eps s (h : heap xR), exact_pinv pinv ->
  match damping with Some b => 0 <= b | None => True end ->
  valid h s -> finite_data h s -> all_con_finite h s ->
  (forall k, In k (s_cons s) -> nondegenerate (cfg_of h) h (getK h k)) ->
  exists d D, length d = get_n_dofs h s /\ 0 <= D /\ (D = 0 -> d = repeat 0 (get_n_dofs h s)) /\
    derivable_pt_lim (fun t => half_squares (moved h s d t) s) 0 (- D) /\
    forall st h', solve pinv (one_step damping (Fin m) eps st) s h = (h', Val (SOk tt)) ->
      get_data h' s = get_data (moved h s d st) s /\ half_squares h' s = half_squares (moved h s d st) s.
Proof. exact C63_derivative_lemma. Qed.
(** so a step with a small enough step size reduces the sum of squares or moves nothing *)
Theorem C63_small_steps_decrease : forall pinv damping m eps s (h : heap xR), exact_pinv pinv ->
  match damping with Some b => 0 <= b | None => True end ->
  valid h s -> finite_data h s -> all_con_finite h s ->
  (forall k, In k (s_cons s) -> nondegenerate (cfg_of h) h (getK h k)) ->
  exists delta, 0 < delta /\ forall st, 0 < st < delta -> forall h',
    solve pinv (one_step damping (Fin m) eps st) s h = (h', Val (SOk tt)) ->
    get_data h' s = get_data h s \/ half_squares h' s < half_squares h s.
Proof. exact C63_decrease_lemma. Qed.
Example C63_example : exact_pinv line_pinv /\ valid hd_heap hd_sketch /\ finite_data hd_heap hd_sketch /\
  all_con_finite hd_heap hd_sketch /\
  (forall k, In k (s_cons hd_sketch) -> nondegenerate (cfg_of hd_heap) hd_heap (getK hd_heap k)) /\
  exists h', solve line_pinv (one_step None (Fin 0) (Fin 0) 1) hd_sketch hd_heap = (h', Val (SOk tt)) /\
    get_data h' hd_sketch <> get_data hd_heap hd_sketch.
Proof.
  split; [exact line_pinv_exact|]. split; [exact hd_valid|]. split; [exact hd_finite_data|].
  split; [exact hd_finite|]. split; [intros k [<-|[]]; exact I|].
  destruct hd_solve as (h' & E & D). exists h'. split; [exact E|]. rewrite D. intros H. injection H. lra.
Qed.

Print Assumptions C28_textbook_update.
Print Assumptions C31_every_solver.
Print Assumptions C62_centre_of_floating_group.
Print Assumptions C63_descent_direction.
Print Assumptions C63_small_steps_decrease.
