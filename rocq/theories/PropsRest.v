(** * C31 in binary64: primitives no constraint depends on do not move *)
From Coq Require Import List ZArith NArith Arith Bool Lia Floats.SpecFloat.
From Verif Require Import Arith Vec Prim Cons Sketch Solve Api Spec SolverSpec ExactSpec NumSpec ArithF RestSpec WfLemmas SpecLemmas
  SolverWitness DecompExamples RestForms.
Import ListNotations.

(** Gradient descent leaves them as they are, bit for bit, whatever happens elsewhere in the sketch: overflow, NaN, a panic ... *)
Theorem C31_binary64_gradient_descent : forall L, let A := ArithF L in
  forall (pinv : mat spec_float -> spec_float -> pinv_res (mat spec_float)) P (h : heap spec_float) s c,
  valid h s -> registered s c -> (forall k, In k (s_cons s) -> ~ In c (deps h (getK h k))) -> Forall canonical (prim_data h c) ->
  prim_data (fst (solve pinv (GradientBased P) s h)) c = prim_data h c.
Proof. exact C31_gd_lemma. Qed.
(** ... and so does BFGS, except that a zero may change its sign. *)
Theorem C31_binary64_bfgs : forall L, let A := ArithF L in
  forall (pinv : mat spec_float -> spec_float -> pinv_res (mat spec_float)) P (h : heap spec_float) s c,
  valid h s -> registered s c -> (forall k, In k (s_cons s) -> ~ In c (deps h (getK h k))) ->
  Forall2 same_value (prim_data (fst (solve pinv (BFGS P) s h)) c) (prim_data h c).
Proof. exact C31_bfgs_lemma. Qed.

Definition nz : spec_float := S754_zero true.
Definition rest_heap : heap spec_float :=
  let z := S754_zero false in mkHeap [mkPoint nz nz z z; mkPoint (lit64 3 0) (lit64 4 0) z z] [] [] [] [FixPoint 1 (lit64 5 0) (lit64 1 0)].
Definition rest_sketch : sketch := mkSketch [(0%N, PPoint 0); (1%N, PPoint 1)] 2%N [0].
Lemma rest_run L : let A := ArithF L in exists rs, run nopinv init [AddPoint2 nz nz; AddPoint2 (lit64 3 0) (lit64 4 0);
   Constrain (FixPoint 1 (lit64 5 0) (lit64 1 0))] rs (rest_heap, rest_sketch).
Proof. exists [RetLoc 0; RetLoc 1; RetLoc 0]. goF. Qed.
Lemma rest_valid L : let A := ArithF L in valid rest_heap rest_sketch.
Proof. intros A. destruct (rest_run L) as [rs R]. exact (reachable_valid nopinv _ _ _ R eq_refl). Qed.
Example C31_binary64_example : forall L, let A := ArithF L in valid rest_heap rest_sketch /\ registered rest_sketch (PPoint 0) /\
  (forall k, In k (s_cons rest_sketch) -> ~ In (PPoint 0) (deps rest_heap (getK rest_heap k))) /\
  Forall canonical (prim_data rest_heap (PPoint 0)) /\
  prim_data (fst (solve nopinv (GradientBased gd_default) rest_sketch rest_heap)) (PPoint 1) = [lit64 5 0; lit64 1 0].
Proof.
  intros L A. split; [exact (rest_valid L)|]. split; [exists 0%N; reflexivity|]. split; [intros k [<-|[]] [H|[]]; discriminate|].
  split; [repeat constructor|]. vm_compute. reflexivity.
Qed.
(** BFGS does change the sign of a zero: a free point at (-0, -0) ends at (0, 0). *)
Theorem C31_binary64_bfgs_bits_refuted : forall L, let A := ArithF L in
  forall (pinv : mat spec_float -> spec_float -> pinv_res (mat spec_float)), exists P (h : heap spec_float) s c,
  valid h s /\ registered s c /\ (forall k, In k (s_cons s) -> ~ In c (deps h (getK h k))) /\ Forall canonical (prim_data h c) /\
  prim_data (fst (solve pinv (BFGS P) s h)) c <> prim_data h c.
Proof.
  intros L A pinv. exists bfgs_default, rest_heap, rest_sketch, (PPoint 0).
  destruct (C31_binary64_example L) as (H1 & H2 & H3 & H4 & _). repeat (split; [assumption|]).
  assert (E : prim_data (fst (solve pinv (BFGS bfgs_default) rest_sketch rest_heap)) (PPoint 0) = [S754_zero false; S754_zero false])
    by (vm_compute; reflexivity).
  rewrite E. discriminate.
Qed.

Print Assumptions C31_binary64_gradient_descent.
Print Assumptions C31_binary64_bfgs.
Print Assumptions C31_binary64_bfgs_bits_refuted.
