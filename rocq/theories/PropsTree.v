(** * C85: sketches entered constraint by constraint *)
From Coq Require Import List ZArith NArith Arith Bool Lia Reals Lra Permutation.
From Verif Require Import Arith Vec Prim Cons Sketch Solve Api Spec SolverSpec ArithR ExactSpec LinearSpec TreeSpec
  HeapLemmas SolveLemmas WfLemmas DataLemmas SpecLemmas ExactLemmas DerivLemmas GradLemmas LossLemmas SolverForms PropsSolver TreeLemmas TreeForms TreeRun TreeExamples.
Import ListNotations.
Local Open Scope R_scope.

(** If every constraint, when it was entered, positioned a point (or one coordinate of a point) that
    no earlier constraint acted on, the gradient vanishes exactly where every constraint holds, up to
    parallel constraints on perpendicular lines and vice versa.  All twelve kinds, any order in the
    sketch. *)
Theorem C85_no_false_minimum : forall (h : heap xR) s, valid h s -> refs_closed h s -> all_con_finite h s ->
  (forall k, In k (s_cons s) -> nondegenerate (cfg_of h) h (getK h k)) -> one_by_one h s ->
  exists h1 gr, get_gradient s h = (h1, Val (map Fin gr)) /\
    ((forall x, In x gr -> x = 0) <->
     forall k, In k (s_cons s) -> satisfied (cfg_of h) h (getK h k) \/ crosswise (cfg_of h) h (getK h k)).
Proof. exact C85_zero_lemma. Qed.
(** a sketch with four constraints on four points; the exception occurs *)
Example C85_crosswise_example : valid cw_heap cw_sketch /\ refs_closed cw_heap cw_sketch /\ all_con_finite cw_heap cw_sketch /\
  (forall k, In k (s_cons cw_sketch) -> nondegenerate (cfg_of cw_heap) cw_heap (getK cw_heap k)) /\ one_by_one cw_heap cw_sketch /\
  (exists h1 gr, get_gradient cw_sketch cw_heap = (h1, Val (map Fin gr)) /\ forall x, In x gr -> x = 0) /\
  ~ satisfied (cfg_of cw_heap) cw_heap (getK cw_heap 3%nat).
Proof.
  split; [exact cw_valid|]. split; [exact cw_closed|]. split; [exact cw_finite|]. split; [exact cw_nondegenerate|]. split; [exact cw_one|].
  split; [|apply cw_cross].
  destruct (C85_no_false_minimum _ _ cw_valid cw_closed cw_finite cw_nondegenerate cw_one) as (h1 & gr & E & Z).
  exists h1, gr. split; [exact E|]. apply Z. exact cw_all.
Qed.
(** Without that hypothesis it fails: three points in a row, each to be at distance 3 from the
    others, are an equilibrium, although the constraints can be satisfied. *)
Theorem C85_cycle_refuted : exists (os : list (op xR)) rs h s, run xpinv init os rs (h, s) /\ all_con_finite h s /\
  (forall k, In k (s_cons s) -> nondegenerate (cfg_of h) h (getK h k) /\ binary (getK h k) = true) /\
  (exists h1 gr, get_gradient s h = (h1, Val (map Fin gr)) /\ forall x, In x gr -> x = 0) /\
  (forall k, In k (s_cons s) -> ~ satisfied (cfg_of h) h (getK h k)) /\
  exists x hx, at_point h s (map Fin x) hx /\ all_satisfied hx s.
Proof.
  exists cy_ops, ([RetLoc 0; RetLoc 1; RetLoc 2; RetLoc 0; RetLoc 1; RetLoc 2]%nat), cy_heap, cy_sketch.
  split; [exact cy_run|]. split; [exact cy_finite|]. split; [exact cy_nondegenerate|]. split; [|split].
  - apply zero_pairs; [exact cy_valid|exact cy_finite|intros k Hk; now apply cy_nondegenerate|].
    intros D. destruct cy_len as (L1 & L2 & L3). cbv zeta in L1, L2, L3.
    cbn [s_cons cy_sketch map sumR fold_right]. 
    change (getK cy_heap 0%nat) with (@EuclideanDistance xR 0%nat 1%nat (q 3)). change (getK cy_heap 1%nat) with (@EuclideanDistance xR 1%nat 2%nat (q 3)).
    change (getK cy_heap 2%nat) with (@EuclideanDistance xR 0%nat 2%nat (q 3)). cbn [rowsR]. rewrite L1, L2, L3.
    unfold pairing, pairT. cbn [map sumR fold_right fst snd nth from_to]. simpl. field.
  - exact cy_unsatisfied.
  - exists [0; 0; 3; 0; 3 / 2; 3 * sqrt 3 / 2], cy_solved. split; [exact cy_at|exact cy_satisfied].
Qed.

(** A small gradient means a small loss: with m constraints (distances, lines on an axis, fixed
    points, arc end points) 2 loss <= m^2 |gradient|^2. *)
Theorem C85_gradient_bounds_loss : forall (h : heap xR) s h1 gr l, valid h s -> refs_closed h s -> all_con_finite h s ->
  (forall k, In k (s_cons s) -> nondegenerate (cfg_of h) h (getK h k) /\ binary (getK h k) = true) -> one_by_one h s ->
  get_gradient s h = (h1, Val (map Fin gr)) -> get_loss h s = Fin l ->
  2 * l <= INR (length (s_cons s)) * INR (length (s_cons s)) * dotL gr gr.
Proof. exact C85_gap_lemma. Qed.
(** So gradient descent shrinks the loss by a fixed factor with every accepted step, if the
    requested distances are larger than the square root of twice the loss it starts from. *)
Theorem C85_rate : forall s (h0 : heap xR) l0, valid h0 s -> finite_data h0 s -> refs_closed h0 s -> all_con_finite h0 s ->
  (forall k, In k (s_cons s) -> binary (getK h0 k) = true) -> one_by_one h0 s -> get_loss h0 s = Fin l0 -> roomy h0 s l0 ->
  forall n h, gd_steps s h0 n h ->
  exists l, get_loss h s = Fin l /\ l <= (1 - / (81920000 * (INR (length (s_cons s)) * INR (length (s_cons s))))) ^ n * l0.
Proof. exact C85_rate_lemma. Qed.
(** And Ok from gradient descent means a small loss, or that the budget is used up. *)
Theorem C85_gradient_descent : forall s (h0 h' : heap xR) l0 P n lo e, valid h0 s -> finite_data h0 s -> refs_closed h0 s -> all_con_finite h0 s ->
  (forall k, In k (s_cons s) -> binary (getK h0 k) = true) -> one_by_one h0 s -> get_loss h0 s = Fin l0 -> roomy h0 s l0 ->
  gd_min_loss P = Fin lo -> gd_min_grad P = Fin e -> gd_run s P h0 = (h', Val (SOk n)) ->
  exists l, get_loss h' s = Fin l /\
    (l < lo \/ 2 * l <= INR (length (s_cons s)) * INR (length (s_cons s)) * (e * e) \/
     n = N.to_nat (gd_max P) /\ l <= (1 - / (81920000 * (INR (length (s_cons s)) * INR (length (s_cons s))))) ^ n * l0).
Proof. exact C85_run_lemma. Qed.
(** a point held at the origin and a point at distance 2 that is to be at distance 3; one step *)
Example C85_example : valid tw0 tw_sketch /\ finite_data tw0 tw_sketch /\ refs_closed tw0 tw_sketch /\ all_con_finite tw0 tw_sketch /\
  (forall k, In k (s_cons tw_sketch) -> binary (getK tw0 k) = true) /\ one_by_one tw0 tw_sketch /\ get_loss tw0 tw_sketch = Fin (/ 2) /\
  roomy tw0 tw_sketch (/ 2) /\ gd_steps tw_sketch tw0 1 tw1 /\
  snd (get_gradient tw_sketch tw0) = Val (map Fin [1; 0; - 1; 0]).
Proof.
  split; [exact tw_valid|]. split; [exact tw_finite_data|]. split; [exact tw_closed|]. split; [exact (tw_cf _ _ _ _)|].
  split; [exact tw_binary|]. split; [exact tw_one|]. split; [exact tw_loss0|]. split; [exact tw_roomy|]. split; [exact tw_step|].
  unfold tw0. rewrite tw_grad by lra. cbn [snd]. unfold RMat.FinV. repeat f_equal; ring.
Qed.
Example C85_nondegenerate_example : forall k, In k (s_cons tw_sketch) -> nondegenerate (cfg_of tw0) tw0 (getK tw0 k) /\ binary (getK tw0 k) = true.
Proof.
  intros k H. split; [|now apply tw_binary].
  exact (roomy_nd tw0 tw_sketch (/ 2) (/ 2) (tw_cf _ _ _ _) tw_binary tw_roomy tw_loss0 (Rle_refl _) k H).
Qed.
(** one pass allowed *)
Example C85_run_example : exists h', gd_run tw_sketch (mkGD 1%N (Fin 0) (Fin 0)) tw0 = (h', Val (SOk 1%nat)).
Proof. exact tw_gd. Qed.

Print Assumptions C85_no_false_minimum.
Print Assumptions C85_cycle_refuted.
Print Assumptions C85_gradient_bounds_loss.
Print Assumptions C85_rate.
Print Assumptions C85_gradient_descent.
