(** * C65: the rate of gradient descent *)
From Coq Require Import List ZArith NArith Arith Bool Lia Sorted Reals Lra.
From Verif Require Import Arith Vec Prim Cons Sketch Solve Api Spec SolverSpec ArithR ExactSpec
  HeapLemmas SolveLemmas BookLemmas WfLemmas DataLemmas SpecLemmas ExactLemmas RMat ExactRun SolverForms ConvergeLemmas PropsSolver.
Import ListNotations.
Local Open Scope R_scope.

(** ** One point with three identical [FixPoint] constraints: every step of gradient descent halves the distance *)
Definition tri_heap (x gx gy : R) : heap xR :=
  mkHeap [mkPoint (Fin x) (Fin 0) (Fin gx) (Fin gy)] [] [] [] [FixPoint 0%nat (q 0) (q 0); FixPoint 0%nat (q 0) (q 0); FixPoint 0%nat (q 0) (q 0)].
Definition tri_sketch : sketch := mkSketch [(0%N, PPoint 0%nat)] 1%N [0%nat; 1%nat; 2%nat].


Lemma tri_grad x gx gy : get_gradient tri_sketch (tri_heap x gx gy) = (tri_heap x (3 * x) 0, Val (FinV [3 * x; 0])).
Proof.
  transitivity (tri_heap x (0 / 1 + (x - 0) + (x - 0) + (x - 0)) (0 / 1 + (0 - 0) + (0 - 0) + (0 - 0)),
    @Val (list xR) [Fin (0 / 1 + (x - 0) + (x - 0) + (x - 0)); Fin (0 / 1 + (0 - 0) + (0 - 0) + (0 - 0))]).
  - cbv -[IZR Rplus Rmult Ropp Rminus Rdiv Rinv]. reflexivity.
  - replace (0 / 1 + (x - 0) + (x - 0) + (x - 0)) with (3 * x) by lra. replace (0 / 1 + (0 - 0) + (0 - 0) + (0 - 0)) with 0 by lra. reflexivity.
Qed.
Lemma tri_loss x gx gy : get_loss (tri_heap x gx gy) tri_sketch = Fin (3 / 2 * x * x).
Proof. cbv -[IZR Rplus Rmult Ropp Rminus Rdiv Rinv]. f_equal. field. Qed.
Lemma tri_set x gx gy a b : b = 0 -> set_data tri_sketch (FinV [a; b]) (tri_heap x gx gy) = (tri_heap a gx gy, Val tt).
Proof. intros ->. reflexivity. Qed.
Lemma tri_data x gx gy : get_data (tri_heap x gx gy) tri_sketch = FinV [x; 0].
Proof. reflexivity. Qed.
Lemma tri_search x gx gy : x <> 0 ->
  line_search_wolfe tri_sketch (FinV [- (3 * x); - 0]) (FinV [3 * x; 0]) (tri_heap x gx gy) = (tri_heap (- (x / 2)) (3 * - (x / 2)) 0, Val (LOk (Fin (/ 2)))).
Proof.
  intros Hx. assert (P : 0 < x * x) by nra. unfold line_search_wolfe. rewrite vdot_R. unfold dotL, sumR; cbn [map2 fold_right].
  unfold fge. rewrite f0_R, (proj2 (le_false _ _)) by lra.
  rewrite tri_loss, tri_data. change ls_max_iter with (S (S 13)). generalize 13%nat. intros kk. cbn [ls_loop]. unfold mbind at 1.
  rewrite f1_R, vscale_R, vadd_R. unfold sclL, addL; cbn [map map2]. rewrite tri_set by lra. rewrite tri_loss.
  unfold wolfe_c1, wolfe_c2. rewrite l14_R, l91_R, !mul_R, add_R, (proj2 (le_false _ _)) by lra.
  unfold mbind at 1. rewrite fhalf_R, mul_R, vscale_R, vadd_R. unfold sclL, addL; cbn [map map2]. rewrite tri_set by lra. rewrite tri_loss.
  rewrite !mul_R, add_R, (proj2 (le_true _ _)) by lra.
  unfold mbind at 1. rewrite tri_grad, vdot_R. unfold dotL, sumR; cbn [map2 fold_right]. unfold fge. rewrite (proj2 (le_true _ _)) by lra.
  unfold mret. f_equal; [|do 3 f_equal; lra]. f_equal; field.
Qed.
Fixpoint tri_x (n : nat) : R := match n with O => 4 | S n => - (tri_x n / 2) end.
Lemma tri_x_neq n : tri_x n <> 0.
Proof. induction n; simpl; lra. Qed.
Definition tri_seq (n : nat) : heap xR := match n with O => tri_heap 4 0 0 | S _ => tri_heap (tri_x n) (3 * tri_x n) 0 end.
Lemma tri_step n : gd_steps tri_sketch (tri_seq n) 1 (tri_seq (S n)).
Proof.
  assert (H : exists gx gy, tri_seq n = tri_heap (tri_x n) gx gy) by (destruct n; simpl; eauto).
  destruct H as (gx & gy & E). eapply gd_step; [apply gd_start | rewrite E; apply tri_grad | |].
  - rewrite vneg_R. apply (tri_search _ _ _ (tri_x_neq n)).
  - rewrite E, tri_data, vneg_R, vaxpy_R. unfold addL, sclL, negL. cbn [map map2].
    rewrite tri_set by lra. cbn [tri_seq tri_x]. f_equal. f_equal. field.
Qed.
Lemma tri_seq_grad n : snd (get_gradient tri_sketch (tri_seq n)) = Val (map Fin [3 * tri_x n; 0]).
Proof. destruct n; unfold tri_seq; rewrite tri_grad; reflexivity. Qed.
Example tri_run : run xpinv init [AddPoint2 (q 4) (q 0); Constrain (FixPoint 0%nat (q 0) (q 0)); Constrain (FixPoint 0%nat (q 0) (q 0)); Constrain (FixPoint 0%nat (q 0) (q 0))]
  [RetLoc 0%nat; RetLoc 0%nat; RetLoc 1%nat; RetLoc 2%nat] (mkHeap [Point2_new (q 4) (q 0)] [] [] [] [FixPoint 0%nat (q 0) (q 0); FixPoint 0%nat (q 0) (q 0); FixPoint 0%nat (q 0) (q 0)], tri_sketch).
Proof. goS. Qed.
Lemma tri_heap0 : tri_seq 0 = mkHeap [Point2_new (q 4) (q 0)] [] [] [] [FixPoint 0%nat (q 0) (q 0); FixPoint 0%nat (q 0) (q 0); FixPoint 0%nat (q 0) (q 0)].
Proof. unfold tri_seq, tri_heap, Point2_new. rewrite f0_R. reflexivity. Qed.
Example tri_valid : valid (tri_seq 0) tri_sketch.
Proof. rewrite tri_heap0. exact (reachable_valid xpinv _ _ _ tri_run eq_refl). Qed.
Example tri_finite_data : finite_data (tri_seq 0) tri_sketch.
Proof. apply (finite_iff _ _ (valid_keys _ _ tri_valid)). reflexivity. Qed.
Example tri_finite : all_con_finite (tri_seq 0) tri_sketch.
Proof. con_finS. Qed.

(** ** C65: how fast gradient descent gets near a stationary point
    Every accepted step lowers the loss by at least |gradient|^2 / 163840000
    (= 1e-4 / 2^14: the constant of the sufficient-decrease test and the smallest step length the
    search tries). *)
Theorem C65_every_step : forall s (h h' : heap xR) gr l, valid h s -> finite_data h s -> all_con_finite h s ->
  gd_steps s h 1 h' -> snd (get_gradient s h) = Val (map Fin gr) -> get_loss h s = Fin l ->
  exists l', get_loss h' s = Fin l' /\ l' <= l - / 163840000 * dotL gr gr.
Proof. exact C65_step_lemma. Qed.
Example C65_step_example : gd_steps tri_sketch (tri_seq 0) 1 (tri_seq 1) /\ get_loss (tri_seq 0) tri_sketch = Fin 24 /\
  get_loss (tri_seq 1) tri_sketch = Fin 6.
Proof. split; [exact (tri_step 0)|]. unfold tri_seq. rewrite !tri_loss. split; f_equal; simpl; lra. Qed.

(** So a run makes at most 163840000 l / e^2 steps, where e is the gradient tolerance and l the loss it
    starts from; and a run whose budget is larger than that ends because of a tolerance, never because
    the budget is used up. *)
Theorem C65_iteration_bound : forall s P (h h' : heap xR) n e l, valid h s -> finite_data h s -> all_con_finite h s ->
  gd_min_grad P = Fin e -> 0 < e -> get_loss h s = Fin l -> gd_run s P h = (h', Val (SOk n)) ->
  INR n * e ^ 2 <= 163840000 * l /\
  (163840000 * l < INR (N.to_nat (gd_max P)) * e ^ 2 ->
   flt (get_loss h' s) (gd_min_loss P) = true \/
   exists g, snd (get_gradient s h') = Val g /\ flt (vnorm g) (gd_min_grad P) = true).
Proof. exact C65_budget_lemma. Qed.
(** one step is made here *)
Example C65_bound_example : let P := mkGD 100000000000 (Fin 0) (Fin 7) in
  163840000 * 24 < INR (N.to_nat (gd_max P)) * 7 ^ 2 /\ exists h', gd_run tri_sketch P (tri_seq 0) = (h', Val (SOk 1%nat)).
Proof.
  cbn [gd_max]. split.
  - rewrite INR_IZR_INZ, N_nat_Z. simpl. lra.
  - exists (tri_heap (4 + / 2 * - (3 * 4)) (3 * (4 + / 2 * - (3 * 4))) 0). unfold gd_run, mbind at 1, tri_seq. rewrite tri_grad. cbn [gd_max].
    change 100000000000%N with (N.succ (N.succ 99999999998)). rewrite !N2Nat.inj_succ. generalize (N.to_nat 99999999998). intros k.
    cbn [gd_loop gd_min_grad gd_min_loss]. rewrite tri_loss, vnorm_R. unfold dotL, sumR; cbn [map2 fold_right].
    replace (3 * 4 * (3 * 4) + (0 * 0 + 0)) with (12 * 12) by lra. rewrite sqrt_square by lra.
    rewrite !(proj2 (lt_false _ _)) by lra. rewrite tri_data, vneg_R. unfold mbind at 1. unfold negL. cbn [map]. rewrite tri_search by lra.
    unfold mbind at 1. unfold f1. rewrite vaxpy_R. unfold addL, sclL. cbn [map map2]. rewrite tri_set by lra.
    unfold mbind at 1. rewrite tri_grad, vnorm_R. unfold dotL, sumR; cbn [map2 fold_right].
    replace (3 * (4 + / 2 * - (3 * 4)) * (3 * (4 + / 2 * - (3 * 4))) + (0 * 0 + 0)) with (6 * 6) by lra. rewrite sqrt_square by lra.
    rewrite (proj2 (lt_true _ _)) by lra. reflexivity.
Qed.

(** And if a sequence of steps goes on for ever, the losses converge, the gradients tend to zero and one
    of the first n + 1 gradients has a square of at most 163840000 l / (n + 1). *)
Theorem C65_convergence : forall s (hs : nat -> heap xR) gs l0, valid (hs 0%nat) s -> finite_data (hs 0%nat) s -> all_con_finite (hs 0%nat) s ->
  (forall n, gd_steps s (hs n) 1 (hs (S n))) -> (forall n, snd (get_gradient s (hs n)) = Val (map Fin (gs n))) ->
  get_loss (hs 0%nat) s = Fin l0 ->
  (exists ls l, (forall n, get_loss (hs n) s = Fin (ls n)) /\ 0 <= l <= l0 /\ Un_cv ls l) /\
  Un_cv (fun n => dotL (gs n) (gs n)) 0 /\
  (forall n, exists i, (i <= n)%nat /\ dotL (gs i) (gs i) * INR (S n) <= 163840000 * l0).
Proof. exact C65_converge_lemma. Qed.
Example C65_convergence_example : valid (tri_seq 0) tri_sketch /\ finite_data (tri_seq 0) tri_sketch /\ all_con_finite (tri_seq 0) tri_sketch /\
  (forall n, gd_steps tri_sketch (tri_seq n) 1 (tri_seq (S n))) /\ (forall n, tri_x n <> 0) /\
  (forall n, snd (get_gradient tri_sketch (tri_seq n)) = Val (map Fin [3 * tri_x n; 0])).
Proof. exact (conj tri_valid (conj tri_finite_data (conj tri_finite (conj tri_step (conj tri_x_neq tri_seq_grad))))). Qed.

Print Assumptions C65_every_step.
Print Assumptions C65_iteration_bound.
Print Assumptions C65_convergence.
