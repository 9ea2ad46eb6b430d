(** * C95: what is not constrained does not influence what the solvers do to the rest *)
From Coq Require Import List ZArith NArith Bool Reals Floats.SpecFloat.
From Verif Require Import Arith Vec Prim Cons Sketch Solve Spec ArithR ArithF ExactSpec NumSpec ScaleExamples MotionSpec StallSpec SpareSpec SpareForms SpareBfgs SpareExamples SpareLm SpareDiag.
Import ListNotations.

(** Adding a primitive that has no part in a constraint gives such a pair of sketches, wherever its id falls in the order. *)
Theorem C95_add {F} {A : Arith F} (h : heap F) s c s' id : valid h s -> ~ In (s_next s) (map fst (s_prims s)) ->
  add_primitive h s c = (s', ROk id) -> (forall k, In k (s_cons s) -> ~ In c (deps h (getK h k))) -> with_spare h s s'.
Proof. exact (C95_add_lemma h s c s' id). Qed.
Print Assumptions C95_add.

(** So does deleting one. *)
Theorem C95_delete {F} {A : Arith F} (h : heap F) s c s' id : valid h s -> get_primitive_by_id s id = Some c ->
  delete_primitive s id = (s', ROk tt) -> (forall k, In k (s_cons s) -> ~ In c (deps h (getK h k))) -> valid h s' /\ with_spare h s' s.
Proof. exact (C95_delete_lemma h s c s' id). Qed.
Print Assumptions C95_delete.

(** Exact arithmetic: with more primitives, of any kind and anywhere in the order, gradient descent and BFGS take the same steps, give the same
    number of iterations, error or panic, and leave the same numbers in all primitives. *)
Theorem C95_exact P (h : heap xR) s s' : valid h s -> valid h s' -> finite_data h s' -> with_spare h s s' ->
  same_course (gd_run s P h) (gd_run s' P h).
Proof. exact (C95_exact_lemma P h s s'). Qed.
Print Assumptions C95_exact.

Theorem C95_bfgs P (h : heap xR) s s' : valid h s -> valid h s' -> finite_data h s' -> with_spare h s s' ->
  same_course (bfgs_run s P h) (bfgs_run s' P h).
Proof. exact (C95_bfgs_lemma P h s s'). Qed.
Print Assumptions C95_bfgs.

(** Levenberg-Marquardt and Gauss-Newton, for a pseudo-inverse that meets its definition on the matrices it accepts: if both runs end without an
    error, they take the same number of iterations and leave the same numbers in all primitives. *)
Theorem C95_lm pinv P b eps st (h : heap xR) s s' : valid h s -> valid h s' -> finite_data h s' -> all_con_finite h s -> with_spare h s s' ->
  cutting_pinv pinv -> lm_beta P = Fin b -> lm_eps P = Fin eps -> lm_step P = Fin st -> (0 <= eps < b)%R ->
  forall h1 h2 i j, lm_run pinv s P h = (h1, Val (SOk i)) -> lm_run pinv s' P h = (h2, Val (SOk j)) ->
  j = i /\ forall c, prim_data h2 c = prim_data h1 c.
Proof. exact (C95_lm_lemma pinv P b eps st h s s'). Qed.
Print Assumptions C95_lm.

Theorem C95_gn pinv P eps st (h : heap xR) s s' : valid h s -> valid h s' -> finite_data h s' -> all_con_finite h s -> with_spare h s s' ->
  full_pinv pinv -> gn_eps P = Fin eps -> gn_step P = Fin st ->
  forall h1 h2 i j, gn_run pinv s P h = (h1, Val (SOk i)) -> gn_run pinv s' P h = (h2, Val (SOk j)) ->
  j = i /\ forall c, prim_data h2 c = prim_data h1 c.
Proof. exact (C95_gn_lemma pinv P eps st h s s'). Qed.
Print Assumptions C95_gn.

(** Binary64, gradient descent: the same, bit for bit, if the others come last and the number of coordinates passes no multiple of eight. *)
Theorem C95_binary64 L : let A := ArithF L in forall P (h : heap spec_float) s s', valid h s -> valid h s' -> finite_data h s' ->
  with_spare h s s' -> spare_last h s s' ->
  (forall c, registered s' c -> ~ registered s c -> Forall canonical (prim_data h c)) ->
  same_course (gd_run s P h) (gd_run s' P h).
Proof. exact (C95_binary64_lemma L). Qed.
Print Assumptions C95_binary64.

(** If it does pass one, the dot product adds in another order: a free fourth point beside three fixed ones, and the run
    that had stopped at once takes a step. *)
Theorem C95_binary64_anywhere_refuted L : let A := ArithF L in exists P h s s', valid h s /\ valid h s' /\ finite_data h s' /\ with_spare h s s' /\
  get_n_dofs h s = 6 /\ get_n_dofs h s' = 8 /\
  snd (gd_run s P h) = Val (SOk 0) /\ snd (gd_run s' P h) = Val (SOk 1).
Proof.
  exists trio_gd, trio_heap, trio_sketch, four_sketch. destruct (trio_facts L) as (H1 & H2 & H3 & H4 & H5 & H6).
  exact (conj H1 (conj H2 (conj H3 (conj H4 (conj H5 (conj H6 (trio_runs L))))))).
Qed.
Print Assumptions C95_binary64_anywhere_refuted.

Example C95_exact_ex : valid duoR duo_sketch /\ valid duoR duo_mid /\ finite_data duoR duo_mid /\ with_spare duoR duo_sketch duo_mid.
Proof. exact duoR_facts. Qed.
Example C95_binary64_ex L : let A := ArithF L in
  valid duo_heap duo_sketch /\ valid duo_heap duo_last /\ finite_data duo_heap duo_last /\ with_spare duo_heap duo_sketch duo_last /\
  spare_last duo_heap duo_sketch duo_last /\ (forall c, registered duo_last c -> ~ registered duo_sketch c -> Forall canonical (prim_data duo_heap c)) /\
  snd (gd_run duo_sketch chain_gd duo_heap) = Val (SOk 10).
Proof. exact (duo_facts L). Qed.
Example C95_add_ex L : let A := ArithF L in
  ~ In (s_next trio_sketch) (map fst (s_prims trio_sketch)) /\ add_primitive trio_heap trio_sketch (PPoint 3) = (four_sketch, ROk 3%N) /\
  (forall k, In k (s_cons trio_sketch) -> ~ In (PPoint 3) (deps trio_heap (getK trio_heap k))).
Proof.
  split; [simpl; intuition discriminate|]. split; [reflexivity|].
  intros k [<-|[<-|[<-|[]]]]; simpl; intuition discriminate.
Qed.
Example C95_delete_ex L : let A := ArithF L in valid trio_heap four_sketch /\ get_primitive_by_id four_sketch 3%N = Some (PPoint 3) /\
  delete_primitive four_sketch 3%N = (mkSketch (s_prims trio_sketch) 4%N (s_cons trio_sketch), ROk tt).
Proof. split; [apply (trio_facts L)|]. split; reflexivity. Qed.
Example C95_lm_ex : valid axis_heap axis_sketch /\ valid axis_heap axis_more /\ finite_data axis_heap axis_more /\
  all_con_finite axis_heap axis_sketch /\ with_spare axis_heap axis_sketch axis_more.
Proof. exact axis_facts. Qed.
Example C95_lm_pinv_ex : cutting_pinv diag_pinv /\ full_pinv diag_pinv.
Proof. exact (conj diag_pinv_cutting diag_pinv_full). Qed.
Example C95_lm_run_ex : (exists h', lm_run diag_pinv axis_sketch axis_lm axis_heap = (h', Val (SOk 1))) /\
  (exists h', lm_run diag_pinv axis_more axis_lm axis_heap = (h', Val (SOk 1))).
Proof. exact axis_lm_runs. Qed.
Example C95_gn_run_ex : (exists h', gn_run diag_pinv axis_sketch axis_gn axis_heap = (h', Val (SOk 1))) /\
  (exists h', gn_run diag_pinv axis_more axis_gn axis_heap = (h', Val (SOk 1))).
Proof. exact axis_gn_runs. Qed.
