(** * Sketches for the examples of C88 *)
From Coq Require Import List ZArith NArith Arith Bool Lia Reals Lra Permutation.
From Verif Require Import Arith Vec Prim Cons Sketch Solve Api Spec SolverSpec ArithR ExactSpec TreeSpec PairSpec
  HeapLemmas SolveLemmas BookLemmas WfLemmas DataLemmas SpecLemmas ExactLemmas DerivLemmas GradLemmas RMat ExactRun SolverForms LinearSpec LossLemmas SearchLemmas StepLemmas PropsBook PropsSolver TreeExamples.
Import ListNotations.
Local Open Scope R_scope.

(** ** two points to be at distance 3 and a line to be vertical *)
Local Close Scope R_scope.
Definition pr_ops : list (op xR) := [AddPoint2 (q 0) (q 0); AddPoint2 (q 2) (q 0); AddPoint2 (q 5) (q 0); AddPoint2 (q 6) (q 1); AddPoint2 (q 9) (q 9); AddLine 2 3;
  Constrain (EuclideanDistance 0 1 (q 3)); Constrain (VerticalLine 0)].
Definition pr_heap : heap xR :=
  mkHeap [Point2_new (q 0) (q 0); Point2_new (q 2) (q 0); Point2_new (q 5) (q 0); Point2_new (q 6) (q 1); Point2_new (q 9) (q 9)] [mkLine 2 3] [] []
    [EuclideanDistance 0 1 (q 3); VerticalLine 0].
Definition pr_sketch : sketch := mkSketch [(0%N, PPoint 0); (1%N, PPoint 1); (2%N, PPoint 2); (3%N, PPoint 3); (4%N, PPoint 4); (5%N, PLine 0)] 6%N [0; 1].
Local Open Scope R_scope.
Example pr_run : run xpinv init pr_ops ([RetLoc 0; RetLoc 1; RetLoc 2; RetLoc 3; RetLoc 4; RetLoc 0; RetLoc 0; RetLoc 1]%nat) (pr_heap, pr_sketch).
Proof. unfold pr_ops. goS. Qed.
Example pr_valid : valid pr_heap pr_sketch.
Proof. exact (reachable_valid xpinv _ _ _ pr_run eq_refl). Qed.
Example pr_closed : refs_closed pr_heap pr_sketch.
Proof. apply (C03_closed xpinv _ _ _ pr_run eq_refl). plainS. Qed.
Example pr_finite_data : finite_data pr_heap pr_sketch.
Proof. apply (finite_iff _ _ (valid_keys _ _ pr_valid)). reflexivity. Qed.
Example pr_finite : all_con_finite pr_heap pr_sketch.
Proof. con_finS. Qed.
Ltac nodups := repeat (constructor; [let H := fresh in intros H; simpl in H; repeat (destruct H as [H|H]; [discriminate H|]); destruct H|]); constructor.
Example pr_pairs : separate_pairs pr_heap pr_sketch.
Proof.
  split.
  - intros k H. simpl in H. repeat (destruct H as [<-|H]; [reflexivity|]). destruct H.
  - change (NoDup [0; 1; 2; 3]%nat). nodups.
Qed.
Lemma pr_len : len (from_to (cfg_of pr_heap) 1%nat 0%nat) = 2.
Proof. unfold len, from_to. simpl. replace ((0 - 2) * (0 - 2) + (0 - 0) * (0 - 0)) with (2 * 2) by ring. apply sqrt_square. lra. Qed.
Example pr_reach : within_reach pr_heap pr_sketch.
Proof.
  intros k p1 p2 d H. simpl in H. destruct H as [<-|[<-|[]]]; unfold getK, pr_heap; simpl; intros E; try discriminate E. injection E as <- <- <-.
  pose proof pr_len as L. unfold pr_heap in L. rewrite L. unfold tiny. simpl. lra.
Qed.
Example pr_loss : get_loss pr_heap pr_sketch = Fin 1.
Proof.
  rewrite get_loss_R by apply pr_finite. f_equal. cbn [pr_sketch s_cons map sumR fold_right]. unfold lossR.
  change (getK pr_heap 0%nat) with (@EuclideanDistance xR 0%nat 1%nat (q 3)). change (getK pr_heap 1%nat) with (@VerticalLine xR 0%nat).
  cbn [residual2]. rewrite pr_len. unfold sq, dirR, from_to. simpl. field.
Qed.

(** ** two points ten times as far apart as they should be *)
Local Close Scope R_scope.
Definition far_ops : list (op xR) := [AddPoint2 (q 0) (q 0); AddPoint2 (q 10) (q 0); Constrain (EuclideanDistance 0 1 (q 1))].
Definition far_sketch : sketch := mkSketch [(0%N, PPoint 0); (1%N, PPoint 1)] 2%N [0].
Local Open Scope R_scope.
Definition far_heap (a b : R) (ga gb : R * R) : heap xR :=
  mkHeap [mkPoint (Fin a) (Fin 0) (Fin (fst ga)) (Fin (snd ga)); mkPoint (Fin b) (Fin 0) (Fin (fst gb)) (Fin (snd gb))] [] [] [] [EuclideanDistance 0%nat 1%nat (q 1)].
Definition far0 : heap xR := far_heap 0 10 (0, 0) (0, 0).
Lemma far_len a b ga gb : len (from_to (cfg_of (far_heap a b ga gb)) 1%nat 0%nat) = Rabs (a - b).
Proof. unfold len, from_to. simpl. replace ((a - b) * (a - b) + (0 - 0) * (0 - 0)) with (Rsqr (a - b)) by (unfold Rsqr; ring). apply sqrt_Rsqr_abs. Qed.
Lemma far_cf a b ga gb : all_con_finite (far_heap a b ga gb) far_sketch.
Proof. con_finS. Qed.
Lemma far_loss a b ga gb : get_loss (far_heap a b ga gb) far_sketch = Fin ((Rabs (a - b) - 1) * (Rabs (a - b) - 1) / 2).
Proof.
  rewrite get_loss_R by apply far_cf. f_equal. cbn [far_sketch s_cons map sumR fold_right]. unfold lossR.
  cbn [getK far_heap h_cons nth residual2]. rewrite far_len. unfold sq. simpl. field.
Qed.
Definition pull (a b : R) : R := (Rabs (a - b) - 1) * ((a - b) / Rabs (a - b)).
Lemma far_row a b ga gb : 1 < Rabs (a - b) -> grad_rows (far_heap a b ga gb) (EuclideanDistance 0%nat 1%nat (q 1)) =
  [(GPoint 0%nat, [Fin (pull a b); Fin 0]); (GPoint 1%nat, [Fin (- pull a b); Fin 0])].
Proof.
  intros H. destruct (grad_rows_R (far_heap a b ga gb) (EuclideanDistance 0%nat 1%nat (q 1))) as [E _].
  - apply (far_cf a b ga gb 0%nat). now left.
  - exact I.
  - rewrite E; [|simpl; rewrite far_len by lra; unfold tiny; lra]. cbn [rowsR]. rewrite far_len by lra. unfold toFin, pull. cbn [map fst snd from_to].
    simpl cx. simpl cy. unfold q, vx. repeat (f_equal; try (field; lra)).
Qed.
Lemma far_eq a b x y z w x' y' z' w' : x = x' -> y = y' -> z = z' -> w = w' -> far_heap a b (x, y) (z, w) = far_heap a b (x', y') (z', w').
Proof. now intros -> -> -> ->. Qed.
Lemma far_grad a b ga gb : 1 < Rabs (a - b) -> get_gradient far_sketch (far_heap a b ga gb) =
  (far_heap a b (pull a b, 0) (- pull a b, 0), Val (FinV [pull a b; 0; - pull a b; 0])).
Proof.
  intros H. unfold get_gradient.
  replace (zero_all far_sketch (far_heap a b ga gb)) with (far_heap a b (0, 0) (0, 0)).
  2: { cbv -[IZR Rplus Rmult Ropp Rminus Rdiv Rinv]. repeat f_equal; field. }
  assert (U0 : update_gradient (EuclideanDistance 0%nat 1%nat (q 1)) (far_heap a b (0, 0) (0, 0)) = (far_heap a b (pull a b, 0) (- pull a b, 0), Val tt)).
  { unfold update_gradient. rewrite far_row by auto. transitivity (far_heap a b (0 + pull a b, 0 + 0) (0 + - pull a b, 0 + 0), @Val unit tt).
    - reflexivity.
    - f_equal. apply far_eq; ring. }
  cbn [s_cons far_sketch mfor]. unfold mbind at 1 2.
  change (getK (far_heap a b (0, 0) (0, 0)) 0%nat) with (@EuclideanDistance xR 0%nat 1%nat (q 1)). rewrite U0.
  reflexivity.
Qed.
Lemma far_set a b ga gb x y c d : y = 0 -> d = 0 -> set_data far_sketch (FinV [x; y; c; d]) (far_heap a b ga gb) = (far_heap x c ga gb, Val tt).
Proof. intros -> ->. reflexivity. Qed.
Lemma far_data a b ga gb : get_data (far_heap a b ga gb) far_sketch = FinV [a; 0; b; 0].
Proof. reflexivity. Qed.
Lemma pull0 : pull 0 10 = - 9.
Proof. unfold pull. rewrite Rabs_left by lra. field. Qed.
Lemma pull1 : pull 9 1 = 7.
Proof. unfold pull. rewrite Rabs_pos_eq by lra. field. Qed.
Lemma far_search ga gb : exists ga' gb', line_search_wolfe far_sketch (FinV [9; 0; - 9; 0]) (FinV [- 9; 0; 9; 0]) (far_heap 0 10 ga gb) = (far_heap 9 1 ga' gb', Val (LOk (Fin 1))).
Proof.
  unfold line_search_wolfe. rewrite vdot_R. unfold dotL, sumR; cbn [map2 fold_right].
  unfold fge. rewrite f0_R, (proj2 (le_false _ _)) by lra.
  rewrite far_loss, far_data by lra. change ls_max_iter with (S 14). generalize 14%nat. intros kk. cbn [ls_loop]. unfold mbind at 1.
  rewrite f1_R, vscale_R, vadd_R. unfold sclL, addL; cbn [map map2]. rewrite far_set by lra. rewrite far_loss by lra.
  replace (0 + 1 * 9) with 9 by ring. replace (10 + 1 * - 9) with 1 by ring.
  unfold wolfe_c1, wolfe_c2. rewrite l14_R, l91_R, !mul_R, add_R, (proj2 (le_true _ _)) by (rewrite (Rabs_left (0 - 10)), (Rabs_pos_eq (9 - 1)) by lra; lra).
  unfold mbind at 1. rewrite far_grad by (rewrite Rabs_pos_eq; lra). rewrite pull1, vdot_R. unfold dotL, sumR; cbn [map2 fold_right]. unfold fge. rewrite (proj2 (le_true _ _)) by lra.
  eexists _, _. reflexivity.
Qed.
Lemma far_gd lo e : lo <= 20 -> e <= 10 -> exists h', gd_run far_sketch (mkGD 1%N (Fin lo) (Fin e)) far0 = (h', Val (SOk 1%nat)) /\ get_loss h' far_sketch = Fin (49 / 2).
Proof.
  intros Hl He. unfold gd_run, mbind at 1. unfold far0. rewrite far_grad by (rewrite Rabs_left; lra). rewrite pull0.
  change (N.to_nat (gd_max (mkGD 1%N (Fin lo) (Fin e)))) with 1%nat. cbn [gd_loop gd_min_grad gd_min_loss].
  replace (- - 9) with 9 by ring. rewrite vnorm_R, (proj2 (lt_false _ _)).
  2: { apply Rle_trans with 10; auto. rewrite <- (sqrt_square 10) by lra. apply sqrt_le_1_alt. unfold dotL, sumR. cbn [map2 fold_right]. lra. }
  rewrite far_loss, (proj2 (lt_false _ _)) by (rewrite Rabs_left by lra; lra). unfold mbind at 1. rewrite vneg_R. unfold negL. cbn [map].
  replace (- - 9) with 9 by ring. replace (- 0) with 0 by ring. replace (Ropp 9) with (- 9) by ring. destruct (far_search (- 9, 0) (9, 0)) as (ga & gb & ->). unfold mbind at 1.
  rewrite far_data. unfold f1. rewrite vaxpy_R. unfold addL, sclL. cbn [map map2]. rewrite far_set by lra.
  replace (0 + 1 * 9) with 9 by ring. replace (10 + 1 * - 9) with 1 by ring. unfold mbind. rewrite far_grad by (rewrite Rabs_pos_eq; lra).
  eexists. split; [reflexivity|]. rewrite far_loss. f_equal. rewrite Rabs_pos_eq by lra. field.
Qed.
Example far_run : run xpinv init far_ops [RetLoc 0%nat; RetLoc 1%nat; RetLoc 0%nat]
  (mkHeap [Point2_new (q 0) (q 0); Point2_new (q 10) (q 0)] [] [] [] [EuclideanDistance 0%nat 1%nat (q 1)], far_sketch).
Proof. unfold far_ops. goS. Qed.
Lemma far_heap0 : far0 = mkHeap [Point2_new (q 0) (q 0); Point2_new (q 10) (q 0)] [] [] [] [EuclideanDistance 0%nat 1%nat (q 1)].
Proof. unfold far0, far_heap, Point2_new. rewrite f0_R. reflexivity. Qed.
Example far_valid : valid far0 far_sketch.
Proof. rewrite far_heap0. exact (reachable_valid xpinv _ _ _ far_run eq_refl). Qed.
Example far_finite_data : finite_data far0 far_sketch.
Proof. apply (finite_iff _ _ (valid_keys _ _ far_valid)). reflexivity. Qed.
Example far_closed : refs_closed far0 far_sketch.
Proof. rewrite far_heap0. apply (C03_closed xpinv _ _ _ far_run eq_refl). plainS. Qed.
Example far_pairs : separate_pairs far0 far_sketch.
Proof.
  split.
  - intros k H. simpl in H. repeat (destruct H as [<-|H]; [reflexivity|]). destruct H.
  - change (NoDup [0; 1]%nat). nodups.
Qed.
