(** * Sketches for the examples of C85 *)
From Coq Require Import List ZArith NArith Arith Bool Lia Reals Lra Permutation.
From Verif Require Import Arith Vec Prim Cons Sketch Solve Api Spec SolverSpec ArithR ExactSpec TreeSpec
  HeapLemmas SolveLemmas BookLemmas WfLemmas DataLemmas SpecLemmas ExactLemmas DerivLemmas GradLemmas RMat ExactRun SolverForms LinearSpec LossLemmas SearchLemmas StepLemmas PropsBook PropsSolver.
Import ListNotations.
Local Open Scope R_scope.

(** ** a point held at the origin and a point at distance 3 from it *)
Local Close Scope R_scope.
Definition tw_cons : list (con xR) := [EuclideanDistance 0 1 (q 3); FixPoint 0 (q 0) (q 0)].
Definition tw_sketch : sketch := mkSketch [(0%N, PPoint 0); (1%N, PPoint 1)] 2%N [0; 1].
Definition tw_ops : list (op xR) := [AddPoint2 (q 0) (q 0); AddPoint2 (q 2) (q 0); Constrain (EuclideanDistance 0 1 (q 3)); Constrain (FixPoint 0 (q 0) (q 0))].
Local Open Scope R_scope.
Definition tw_heap (a b : R) (ga gb : R * R) : heap xR :=
  mkHeap [mkPoint (Fin a) (Fin 0) (Fin (fst ga)) (Fin (snd ga)); mkPoint (Fin b) (Fin 0) (Fin (fst gb)) (Fin (snd gb))] [] [] [] tw_cons.
Definition tw0 : heap xR := tw_heap 0 2 (0, 0) (0, 0).
Lemma tw_len a b : a < b -> sqrt ((a - b) * (a - b) + (0 - 0) * (0 - 0)) = b - a.
Proof. intros. replace ((a - b) * (a - b) + (0 - 0) * (0 - 0)) with ((b - a) * (b - a)) by ring. apply sqrt_square. lra. Qed.
Lemma tw_len' a b : a < b -> sqrt ((b - a) * (b - a) + (0 - 0) * (0 - 0)) = b - a.
Proof. intros. replace ((b - a) * (b - a) + (0 - 0) * (0 - 0)) with ((b - a) * (b - a)) by ring. apply sqrt_square. lra. Qed.
Lemma tw_cf a b ga gb : all_con_finite (tw_heap a b ga gb) tw_sketch.
Proof. con_finS. Qed.
Lemma tw_lenR a b ga gb : a < b -> len (from_to (cfg_of (tw_heap a b ga gb)) 1%nat 0%nat) = b - a.
Proof. intros H. unfold len, from_to. simpl. now apply tw_len. Qed.
Lemma tw_loss a b ga gb : a < b -> get_loss (tw_heap a b ga gb) tw_sketch = Fin ((b - a - 3) * (b - a - 3) / 2 + a * a / 2).
Proof.
  intros H. rewrite get_loss_R by apply tw_cf. f_equal. cbn [tw_sketch s_cons map sumR fold_right]. unfold lossR.
  cbn [getK tw_heap tw_cons h_cons nth residual2]. rewrite tw_lenR by auto. unfold sq. simpl. field.
Qed.
Lemma tw_row0 a b ga gb : 1 < b - a -> grad_rows (tw_heap a b ga gb) (EuclideanDistance 0%nat 1%nat (q 3)) =
  [(GPoint 0%nat, [Fin (- (b - a - 3)); Fin 0]); (GPoint 1%nat, [Fin (b - a - 3); Fin 0])].
Proof.
  intros H. destruct (grad_rows_R (tw_heap a b ga gb) (EuclideanDistance 0%nat 1%nat (q 3))) as [E _].
  - apply (tw_cf a b ga gb 0%nat). now left.
  - exact I.
  - rewrite E; [|simpl; rewrite tw_lenR by lra; unfold tiny; lra]. cbn [rowsR]. rewrite tw_lenR by lra. unfold toFin. cbn [map fst snd from_to].
    simpl cx. simpl cy. unfold q, vx. repeat (f_equal; try (field; lra)).
Qed.
Lemma tw_row1 a b ga gb : grad_rows (tw_heap a b ga gb) (FixPoint 0%nat (q 0) (q 0)) = [(GPoint 0%nat, [Fin a; Fin 0])].
Proof.
  destruct (grad_rows_R (tw_heap a b ga gb) (FixPoint 0%nat (q 0) (q 0))) as [E _].
  - apply (tw_cf a b ga gb 1%nat). right. now left.
  - exact I.
  - rewrite E; [|exact I]. cbn [rowsR]. unfold toFin. cbn [map fst snd]. simpl cx. simpl cy. unfold q, vx. repeat (f_equal; try field).
Qed.
Lemma heap_eq a b x y z w x' y' z' w' : x = x' -> y = y' -> z = z' -> w = w' -> tw_heap a b (x, y) (z, w) = tw_heap a b (x', y') (z', w').
Proof. now intros -> -> -> ->. Qed.
Lemma tw_grad a b ga gb : 1 < b - a -> get_gradient tw_sketch (tw_heap a b ga gb) =
  (tw_heap a b (a - (b - a - 3), 0) (b - a - 3, 0), Val (FinV [a - (b - a - 3); 0; b - a - 3; 0])).
Proof.
  intros H. unfold get_gradient.
  replace (zero_all tw_sketch (tw_heap a b ga gb)) with (tw_heap a b (0, 0) (0, 0)).
  2: { cbv -[IZR Rplus Rmult Ropp Rminus Rdiv Rinv]. repeat f_equal; field. }
  assert (U0 : update_gradient (EuclideanDistance 0%nat 1%nat (q 3)) (tw_heap a b (0, 0) (0, 0)) = (tw_heap a b (- (b - a - 3), 0) (b - a - 3, 0), Val tt)).
  { unfold update_gradient. rewrite tw_row0 by auto. transitivity (tw_heap a b (0 + - (b - a - 3), 0 + 0) (0 + (b - a - 3), 0 + 0), @Val unit tt).
    - reflexivity.
    - f_equal. apply heap_eq; ring. }
  assert (U1 : update_gradient (FixPoint 0%nat (q 0) (q 0)) (tw_heap a b (- (b - a - 3), 0) (b - a - 3, 0)) = (tw_heap a b (a - (b - a - 3), 0) (b - a - 3, 0), Val tt)).
  { unfold update_gradient. rewrite tw_row1. transitivity (tw_heap a b (- (b - a - 3) + a, 0 + 0) (b - a - 3, 0), @Val unit tt).
    - reflexivity.
    - f_equal. apply heap_eq; ring. }
  cbn [s_cons tw_sketch mfor]. unfold mbind at 1 2.
  change (getK (tw_heap a b (0, 0) (0, 0)) 0%nat) with (@EuclideanDistance xR 0%nat 1%nat (q 3)). rewrite U0.
  unfold mbind at 1.
  change (getK (tw_heap a b (- (b - a - 3), 0) (b - a - 3, 0)) 1%nat) with (@FixPoint xR 0%nat (q 0) (q 0)). rewrite U1.
  reflexivity.
Qed.
Lemma tw_set a b ga gb x y c d : y = 0 -> d = 0 -> set_data tw_sketch (FinV [x; y; c; d]) (tw_heap a b ga gb) = (tw_heap x c ga gb, Val tt).
Proof. intros -> ->. reflexivity. Qed.
Lemma tw_data a b ga gb : get_data (tw_heap a b ga gb) tw_sketch = FinV [a; 0; b; 0].
Proof. reflexivity. Qed.
(** the first step of gradient descent from (0, 0), (2, 0) *)
Lemma tw_search : line_search_wolfe tw_sketch (FinV [- 1; - 0; - - 1; - 0]) (FinV [1; 0; - 1; 0]) (tw_heap 0 2 (1, 0) (-1, 0)) =
  (tw_heap (- / 2) (5 / 2) (- / 2, 0) (0, 0), Val (LOk (Fin (/ 2)))).
Proof.
  unfold line_search_wolfe. rewrite vdot_R. unfold dotL, sumR; cbn [map2 fold_right].
  unfold fge. rewrite f0_R, (proj2 (le_false _ _)) by lra.
  rewrite tw_loss, tw_data by lra. change ls_max_iter with (S (S 13)). generalize 13%nat. intros kk. cbn [ls_loop]. unfold mbind at 1.
  rewrite f1_R, vscale_R, vadd_R. unfold sclL, addL; cbn [map map2]. rewrite tw_set by lra. rewrite tw_loss by lra.
  unfold wolfe_c1, wolfe_c2. rewrite l14_R, l91_R, !mul_R, add_R, (proj2 (le_false _ _)) by lra.
  unfold mbind at 1. rewrite fhalf_R, mul_R, vscale_R, vadd_R. unfold sclL, addL; cbn [map map2]. rewrite tw_set by lra. rewrite tw_loss by lra.
  rewrite !mul_R, add_R, (proj2 (le_true _ _)) by lra.
  unfold mbind at 1. rewrite tw_grad by lra. rewrite vdot_R. unfold dotL, sumR; cbn [map2 fold_right]. unfold fge. rewrite (proj2 (le_true _ _)) by lra.
  unfold mret. f_equal; [|do 3 f_equal; lra]. unfold tw_heap. cbn [fst snd]. repeat (f_equal; try lra).
Qed.
Definition tw1 : heap xR := tw_heap (- / 2) (5 / 2) (- / 2, 0) (0, 0).
Lemma tw_step : gd_steps tw_sketch tw0 1 tw1.
Proof.
  eapply gd_step; [apply gd_start | unfold tw0; apply tw_grad; lra | |].
  - rewrite vneg_R. unfold negL. cbn [map].
    replace (tw_heap 0 2 (0 - (2 - 0 - 3), 0) (2 - 0 - 3, 0)) with (tw_heap 0 2 (1, 0) (-1, 0)) by (apply heap_eq; ring).
    replace (0 - (2 - 0 - 3)) with 1 by ring. replace (2 - 0 - 3) with (- 1) by ring. apply tw_search.
  - unfold tw0. rewrite tw_data, vneg_R. change (flit 1 0) with (@f1 xR ArithR). unfold f1. rewrite vaxpy_R. unfold addL, sclL, negL. cbn [map map2].
    rewrite tw_set by lra. unfold tw1. f_equal. unfold tw_heap. cbn [fst snd]. repeat (f_equal; try lra).
Qed.
Example tw_run : run xpinv init tw_ops [RetLoc 0%nat; RetLoc 1%nat; RetLoc 0%nat; RetLoc 1%nat]
  (mkHeap [Point2_new (q 0) (q 0); Point2_new (q 2) (q 0)] [] [] [] tw_cons, tw_sketch).
Proof. unfold tw_ops. goS. Qed.
Lemma tw_heap0 : tw0 = mkHeap [Point2_new (q 0) (q 0); Point2_new (q 2) (q 0)] [] [] [] tw_cons.
Proof. unfold tw0, tw_heap, Point2_new. rewrite f0_R. reflexivity. Qed.
Example tw_valid : valid tw0 tw_sketch.
Proof. rewrite tw_heap0. exact (reachable_valid xpinv _ _ _ tw_run eq_refl). Qed.
Example tw_finite_data : finite_data tw0 tw_sketch.
Proof. apply (finite_iff _ _ (valid_keys _ _ tw_valid)). reflexivity. Qed.
Ltac plainS := let o := fresh in let H := fresh in intros o H; simpl in H; repeat (destruct H as [<- | H]; [split; reflexivity|]); destruct H.
Example tw_closed : refs_closed tw0 tw_sketch.
Proof. rewrite tw_heap0. apply (C03_closed xpinv _ _ _ tw_run eq_refl). plainS. Qed.
Ltac enter := repeat (split; [reflexivity|split; [let j := fresh in let q := fresh in let H := fresh in let M := fresh in
  intros j q H M; simpl in H; repeat (destruct H as [H|H]; [injection H as <- <-; simpl in M; exfalso; lia|]); destruct H |]]); exact I.
Example tw_one : one_by_one tw0 tw_sketch.
Proof. exists [(0, 1); (1, 0)]%nat. split; [apply Permutation_refl|]. enter. Qed.
Example tw_binary : forall k, In k (s_cons tw_sketch) -> binary (getK tw0 k) = true.
Proof. intros k H. simpl in H. repeat (destruct H as [<-|H]; [reflexivity|]). destruct H. Qed.
Example tw_loss0 : get_loss tw0 tw_sketch = Fin (/ 2).
Proof. unfold tw0. rewrite tw_loss by lra. f_equal. field. Qed.
Example tw_roomy : roomy tw0 tw_sketch (/ 2).
Proof.
  intros k p1 p2 d H. simpl in H. replace (2 * / 2) with 1 by field. rewrite sqrt_1. unfold tiny.
  destruct H as [<-|[<-|[]]]; unfold getK, tw0, tw_heap, tw_cons; simpl; intros E; try discriminate E. injection E as _ _ <-. simpl. lra.
Qed.

(** ** a line to be parallel to a line it is perpendicular to *)
Local Close Scope R_scope.
Definition cw_ops : list (op xR) := [AddPoint2 (q 0) (q 0); AddPoint2 (q 1) (q 0); AddPoint2 (q 5) (q 0); AddPoint2 (q 5) (q 1); AddLine 0 1; AddLine 2 3;
  Constrain (FixPoint 0 (q 0) (q 0)); Constrain (HorizontalDistance 0 1 (q 1)); Constrain (VerticalDistance 0 1 (q 0)); Constrain (ParallelLines 0 1)].
Definition cw_heap : heap xR :=
  mkHeap [Point2_new (q 0) (q 0); Point2_new (q 1) (q 0); Point2_new (q 5) (q 0); Point2_new (q 5) (q 1)] [mkLine 0 1; mkLine 2 3] [] []
    [FixPoint 0 (q 0) (q 0); HorizontalDistance 0 1 (q 1); VerticalDistance 0 1 (q 0); ParallelLines 0 1].
Definition cw_sketch : sketch := mkSketch [(0%N, PPoint 0); (1%N, PPoint 1); (2%N, PPoint 2); (3%N, PPoint 3); (4%N, PLine 0); (5%N, PLine 1)] 6%N [0; 1; 2; 3].
Local Open Scope R_scope.
Example cw_run : run xpinv init cw_ops ([RetLoc 0; RetLoc 1; RetLoc 2; RetLoc 3; RetLoc 0; RetLoc 1; RetLoc 0; RetLoc 1; RetLoc 2; RetLoc 3]%nat) (cw_heap, cw_sketch).
Proof. unfold cw_ops. goS. Qed.
Example cw_valid : valid cw_heap cw_sketch.
Proof. exact (reachable_valid xpinv _ _ _ cw_run eq_refl). Qed.
Example cw_closed : refs_closed cw_heap cw_sketch.
Proof. apply (C03_closed xpinv _ _ _ cw_run eq_refl). plainS. Qed.
Example cw_finite : all_con_finite cw_heap cw_sketch.
Proof. con_finS. Qed.
(** the horizontal and the vertical distance both position point 1, the parallel constraint point 3 *)
Example cw_one : one_by_one cw_heap cw_sketch.
Proof.
  exists [(3, 3); (2, 1); (1, 1); (0, 0)]%nat. split; [apply Permutation_sym, (Permutation_rev [0; 1; 2; 3]%nat)|].
  repeat (split; [reflexivity|split; [let H := fresh in let M := fresh in
  intros j p H M; simpl in H; repeat (destruct H as [H|H]; [injection H as <- <-; simpl in M; first [exfalso; lia | split; reflexivity]|]); destruct H |]]); exact I.
Qed.
Example cw_nondegenerate : forall k, In k (s_cons cw_sketch) -> nondegenerate (cfg_of cw_heap) cw_heap (getK cw_heap k).
Proof.
  intros k H. simpl in H. repeat (destruct H as [<-|H]; [try exact I|]); [|destruct H].
  unfold getK; cbn. unfold dirR, from_to; cbn. split; intros E; injection E; lra.
Qed.
Example cw_cross : crosswise (cfg_of cw_heap) cw_heap (getK cw_heap 3%nat) /\ ~ satisfied (cfg_of cw_heap) cw_heap (getK cw_heap 3%nat).
Proof. unfold getK; cbn. unfold dotR, crossR, dirR, from_to; cbn. lra. Qed.
Example cw_all : forall k, In k (s_cons cw_sketch) -> satisfied (cfg_of cw_heap) cw_heap (getK cw_heap k) \/ crosswise (cfg_of cw_heap) cw_heap (getK cw_heap k).
Proof.
  intros k H. simpl in H. repeat (destruct H as [<-|H]; [unfold getK; cbn; unfold dotR, dirR, from_to; cbn; lra|]). destruct H.
Qed.

(** ** three points on a line, each to be at distance 3 from the others *)
Local Close Scope R_scope.
Definition cy_ops : list (op xR) := [AddPoint2 (q (-2)) (q 0); AddPoint2 (q 0) (q 0); AddPoint2 (q 2) (q 0);
  Constrain (EuclideanDistance 0 1 (q 3)); Constrain (EuclideanDistance 1 2 (q 3)); Constrain (EuclideanDistance 0 2 (q 3))].
Definition cy_heap : heap xR := mkHeap [Point2_new (q (-2)) (q 0); Point2_new (q 0) (q 0); Point2_new (q 2) (q 0)] [] [] []
    [EuclideanDistance 0 1 (q 3); EuclideanDistance 1 2 (q 3); EuclideanDistance 0 2 (q 3)].
Definition cy_sketch : sketch := mkSketch [(0%N, PPoint 0); (1%N, PPoint 1); (2%N, PPoint 2)] 3%N [0; 1; 2].
Local Open Scope R_scope.
Example cy_run : run xpinv init cy_ops ([RetLoc 0; RetLoc 1; RetLoc 2; RetLoc 0; RetLoc 1; RetLoc 2]%nat) (cy_heap, cy_sketch).
Proof. unfold cy_ops. goS. Qed.
Example cy_valid : valid cy_heap cy_sketch.
Proof. exact (reachable_valid xpinv _ _ _ cy_run eq_refl). Qed.
Example cy_finite : all_con_finite cy_heap cy_sketch.
Proof. con_finS. Qed.
Lemma cy_len : let g := cfg_of cy_heap in len (from_to g 1%nat 0%nat) = 2 /\ len (from_to g 2%nat 1%nat) = 2 /\ len (from_to g 2%nat 0%nat) = 4.
Proof.
  assert (K : forall x y z, 0 <= z -> x * x + y * y = z * z -> sqrt (x * x + y * y) = z) by (intros x y z P ->; now apply sqrt_square).
  unfold len, from_to; cbn. repeat split; apply K; lra.
Qed.
Example cy_nondegenerate : forall k, In k (s_cons cy_sketch) -> nondegenerate (cfg_of cy_heap) cy_heap (getK cy_heap k) /\ binary (getK cy_heap k) = true.
Proof.
  destruct cy_len as (L1 & L2 & L3). intros k H. simpl in H.
  repeat (destruct H as [<-|H]; [split; [cbn [getK cy_heap h_cons nth nondegenerate]; unfold tiny; fold cy_heap; lra | reflexivity]|]). destruct H.
Qed.
Definition cy_solved : heap xR := fst (set_data cy_sketch (map Fin [0; 0; 3; 0; 3 / 2; 3 * sqrt 3 / 2]) cy_heap).
Example cy_at : at_point cy_heap cy_sketch (map Fin [0; 0; 3; 0; 3 / 2; 3 * sqrt 3 / 2]) cy_solved.
Proof.
  assert (E : set_data cy_sketch (map Fin [0; 0; 3; 0; 3 / 2; 3 * sqrt 3 / 2]) cy_heap = (cy_solved, Val tt)) by reflexivity.
  apply at_frame; [exact cy_valid|]. split; [eapply set_frame, E | eapply C09_set_get; [exact cy_valid | exact E]].
Qed.
Example cy_satisfied : all_satisfied cy_solved cy_sketch.
Proof.
  assert (K : forall x y z, 0 <= z -> x * x + y * y = z * z -> sqrt (x * x + y * y) = z) by (intros x y z P ->; now apply sqrt_square).
  assert (Q : sqrt 3 * sqrt 3 = 3) by (apply sqrt_sqrt; lra).
  intros k H; simpl in H; repeat (destruct H as [<- | H]; [cbn; unfold len, from_to; cbn; apply K; nra|]); destruct H.
Qed.
Example cy_unsatisfied : forall k, In k (s_cons cy_sketch) -> ~ satisfied (cfg_of cy_heap) cy_heap (getK cy_heap k).
Proof.
  destruct cy_len as (L1 & L2 & L3). intros k H. simpl in H.
  repeat (destruct H as [<-|H]; [cbn [getK cy_heap h_cons nth satisfied]; fold cy_heap; simpl vx; lra|]). destruct H.
Qed.
(** gradient descent with one pass *)
Lemma tw_gd : exists h', gd_run tw_sketch (mkGD 1%N (Fin 0) (Fin 0)) tw0 = (h', Val (SOk 1%nat)).
Proof.
  eexists. unfold gd_run, mbind at 1, tw0. rewrite tw_grad by lra. cbn [gd_max].
  change (N.to_nat 1) with 1%nat. cbn [gd_loop gd_min_grad gd_min_loss]. rewrite tw_loss, vnorm_R by lra.
  rewrite (proj2 (lt_false _ 0)) by apply sqrt_pos. rewrite (proj2 (lt_false _ _)) by lra.
  rewrite tw_data, vneg_R. unfold negL. cbn [map].
  replace (tw_heap 0 2 (0 - (2 - 0 - 3), 0) (2 - 0 - 3, 0)) with (tw_heap 0 2 (1, 0) (-1, 0)) by (apply heap_eq; ring).
  replace (0 - (2 - 0 - 3)) with 1 by ring. replace (2 - 0 - 3) with (- 1) by ring. replace (Ropp 1) with (-1) by ring. unfold mbind at 1. rewrite tw_search.
  unfold mbind at 1. unfold f1. rewrite vaxpy_R. unfold addL, sclL. cbn [map map2].
  rewrite tw_set by lra. unfold mbind at 1. rewrite tw_grad by lra. reflexivity.
Qed.
