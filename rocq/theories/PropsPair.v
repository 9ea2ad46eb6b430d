(** * C88: separate pairs of points are solved by one iteration *)
From Coq Require Import List ZArith NArith Arith Bool Lia Reals Lra.
From Verif Require Import Arith Vec Prim Cons Sketch Solve Api Spec SolverSpec ArithR ExactSpec TreeSpec PairSpec
  DataLemmas ExactLemmas ExactRun PairLemmas PairExamples PropsSolver.
Import ListNotations.
Local Open Scope R_scope.

(** If every constraint prescribes the distance or the alignment of two points and no point occurs
    in two constraints, the squared length of the gradient is four times the loss. *)
Theorem C88_gradient : forall (h : heap xR) s, valid h s -> refs_closed h s -> all_con_finite h s -> separate_pairs h s -> within_reach h s ->
  exists h1 gr l, get_gradient s h = (h1, Val (map Fin gr)) /\ get_loss h s = Fin l /\ dotL gr gr = 4 * l.
Proof. exact C88_gradient_lemma. Qed.
(** Gradient descent then returns Ok after at most one iteration: either it stops at once because the
    loss or the gradient is below its threshold, or it satisfies every constraint exactly, keeps the
    midpoint of every pair, and moves no other point. *)
Theorem C88_gradient_descent : forall (h : heap xR) s, valid h s -> refs_closed h s -> finite_data h s -> all_con_finite h s -> separate_pairs h s -> within_reach h s ->
  forall P, (0 < gd_max P)%N -> flt f0 (gd_min_loss P) = true \/ flt f0 (gd_min_grad P) = true ->
  exists h' n, gd_run s P h = (h', Val (SOk n)) /\
    ((n = 0%nat /\ forall c, prim_data h' c = prim_data h c) \/ (n = 1%nat /\ settled h h' s)).
Proof. exact C88_gd_lemma. Qed.
(** with the default parameters the loss alone decides which *)
Theorem C88_default : forall (h : heap xR) s, valid h s -> refs_closed h s -> finite_data h s -> all_con_finite h s -> separate_pairs h s -> within_reach h s ->
  forall l, get_loss h s = Fin l ->
  exists h' n, gd_run s gd_default h = (h', Val (SOk n)) /\
    (l < / 100000000000000 -> n = 0%nat /\ forall c, prim_data h' c = prim_data h c) /\
    (/ 100000000000000 <= l -> n = 1%nat /\ settled h h' s).
Proof. exact C88_default_lemma. Qed.
(** So does BFGS, whose first direction is the negative gradient. *)
Theorem C88_bfgs : forall (h : heap xR) s, valid h s -> refs_closed h s -> finite_data h s -> all_con_finite h s -> separate_pairs h s -> within_reach h s ->
  forall P, (0 < bf_max P)%N -> flt f0 (bf_min_loss P) = true \/ flt f0 (bf_grad P) = true ->
  exists h' n, bfgs_run s P h = (h', Val (SOk n)) /\
    ((n = 0%N /\ forall c, prim_data h' c = prim_data h c) \/ (n = 1%N /\ settled h h' s)).
Proof. exact C88_bfgs_lemma. Qed.
(** two points 2 apart that are to be 3 apart, a slanted line that is to be vertical, a free point *)
Example C88_example : run xpinv init pr_ops ([RetLoc 0; RetLoc 1; RetLoc 2; RetLoc 3; RetLoc 4; RetLoc 0; RetLoc 0; RetLoc 1]%nat) (pr_heap, pr_sketch) /\
  valid pr_heap pr_sketch /\ refs_closed pr_heap pr_sketch /\ finite_data pr_heap pr_sketch /\ all_con_finite pr_heap pr_sketch /\
  separate_pairs pr_heap pr_sketch /\ within_reach pr_heap pr_sketch /\ get_loss pr_heap pr_sketch = Fin 1.
Proof.
  split; [exact pr_run|]. split; [exact pr_valid|]. split; [exact pr_closed|]. split; [exact pr_finite_data|]. split; [exact pr_finite|].
  split; [exact pr_pairs|]. split; [exact pr_reach|exact pr_loss].
Qed.
Example C88_example_solved : exists h', gd_run pr_sketch gd_default pr_heap = (h', Val (SOk 1%nat)) /\ settled pr_heap h' pr_sketch.
Proof.
  destruct (C88_default _ _ pr_valid pr_closed pr_finite_data pr_finite pr_pairs pr_reach 1 pr_loss) as (h' & n & E & _ & H).
  destruct H as [-> H]; [lra|]. eauto.
Qed.
(** Points more than twice as far apart as they should be are not solved by one iteration: the first
    trial step throws them past each other and is accepted. *)
Theorem C88_stretched_refuted : exists (os : list (op xR)) rs h s h', run xpinv init os rs (h, s) /\ finite_data h s /\ refs_closed h s /\
  all_con_finite h s /\ separate_pairs h s /\
  (forall k p1 p2 d, In k (s_cons s) -> getK h k = EuclideanDistance p1 p2 d -> tiny <= len (from_to (cfg_of h) p2 p1) /\ tiny <= vx d) /\
  gd_run s (mkGD 1%N (flit 1 14) (flit 1 10)) h = (h', Val (SOk 1%nat)) /\ get_loss h' s = Fin (49 / 2).
Proof.
  destruct (far_gd (/ 100000000000000) (/ 10000000000)) as (h' & E & L); [lra|lra|].
  exists far_ops, [RetLoc 0%nat; RetLoc 1%nat; RetLoc 0%nat], far0, far_sketch, h'. rewrite far_heap0 at 1. split; [exact far_run|].
  split; [exact far_finite_data|]. split; [exact far_closed|]. split; [exact (far_cf _ _ _ _)|]. split; [exact far_pairs|]. split.
  - intros k p1 p2 d H. simpl in H. destruct H as [<-|[]]. intros Ek.
    change (getK far0 0%nat) with (@EuclideanDistance xR 0%nat 1%nat (q 1)) in Ek. injection Ek as <- <- <-.
    unfold far0. rewrite far_len, Rabs_left by lra. unfold tiny. simpl. lra.
  - split; [|exact L]. rewrite <- E. f_equal. f_equal; cbn; f_equal; lra.
Qed.

Print Assumptions C88_gradient.
Print Assumptions C88_gradient_descent.
Print Assumptions C88_default.
Print Assumptions C88_bfgs.
Print Assumptions C88_stretched_refuted.
