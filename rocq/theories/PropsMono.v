(** * C25 and C27 in binary64: the accepted steps never increase the computed loss *)
From Coq Require Import List ZArith NArith Arith Bool Lia Floats.SpecFloat.
From Verif Require Import Arith Vec Prim Cons Sketch Solve Api Spec SolverSpec NumSpec ArithF FloatLemmas
  MonoForms SolverWitness DecompExamples.
Import ListNotations.

(** ** C25 in the arithmetic of the code: rounding included, the loss the code computes at the end is not
    above the one it computed at the start, and neither loss is a NaN if a step was taken *)
Theorem C25_binary64 : forall L, let A := ArithF L in
  forall (pinv : mat spec_float -> spec_float -> pinv_res (mat spec_float)) s P (h h' : heap spec_float),
  libm64 L -> valid h s -> Forall canonical (heap_nums h) ->
  solve pinv (GradientBased P) s h = (h', Val (SOk tt)) ->
  exists n, gd_run s P h = (h', Val (SOk n)) /\
    (n = 0 -> get_loss h' s = get_loss h s) /\ (0 < n -> SFleb (get_loss h' s) (get_loss h s) = true).
Proof. exact C25_binary64_lemma. Qed.
Theorem C25_binary64_steps : forall L, let A := ArithF L in forall s (h hn : heap spec_float) n,
  libm64 L -> valid h s -> Forall canonical (heap_nums h) -> gd_steps s h n hn -> 0 < n ->
  SFleb (get_loss hn s) (get_loss h s) = true.
Proof. exact C25_steps_lemma. Qed.
(** The hypothesis on the heap holds after every history of calls made with binary64 numbers. *)
Theorem C25_canonical : forall L, let A := ArithF L in
  forall (pinv : mat spec_float -> spec_float -> pinv_res (mat spec_float)) os rs (h : heap spec_float) s,
  libm64 L -> pinv64 pinv -> Forall (fun o => Forall canonical (op_nums o)) os -> run pinv init os rs (h, s) ->
  Forall canonical (heap_nums h) /\ Forall (fun r => Forall canonical (ret_nums r)) rs.
Proof. exact C25_canonical_lemma. Qed.
(** In binary64 the decrease need not be strict. *)
Theorem C25_strict_refuted : forall L, let A := ArithF L in
  forall (pinv : mat spec_float -> spec_float -> pinv_res (mat spec_float)), exists s (h h' : heap spec_float),
  valid h s /\ Forall canonical (heap_nums h) /\ gd_run s gd_default h = (h', Val (SOk 1)) /\
  solve pinv (GradientBased gd_default) s h = (h', Val (SOk tt)) /\ get_loss h' s = get_loss h s /\ get_data h' s <> get_data h s.
Proof. exact C25_strict_witness. Qed.
Example C25_binary64_example : let A := ArithF zlibm in
  let h := fix_heap (lit64 3 0) (lit64 4 0) (lit64 1 0) (lit64 5 1) in
  libm64 zlibm /\ valid h fix_sketch /\ Forall canonical (heap_nums h) /\
  (exists h', gd_run fix_sketch gd_default h = (h', Val (SOk 1)) /\ SFltb (get_loss h' fix_sketch) (get_loss h fix_sketch) = true) /\
  (exists rs, run nopinv init [AddPoint2 (lit64 3 0) (lit64 4 0); Constrain (FixPoint 0 (lit64 1 0) (lit64 5 1))] rs (h, fix_sketch)) /\
  pinv64 nopinv /\ Forall (fun o => Forall canonical (op_nums o)) [AddPoint2 (lit64 3 0) (lit64 4 0); Constrain (FixPoint 0 (lit64 1 0) (lit64 5 1))].
Proof.
  intros A h. split; [split; intros; repeat split; reflexivity|]. split; [now apply fix_valid|].
  split; [apply Forall_forall; intros x Hx; vm_compute in Hx; intuition (subst; reflexivity)|].
  split; [exists (fst (gd_run fix_sketch gd_default h)); split; vm_compute; reflexivity|]. split; [now apply fix_run|].
  split; [intros m eps q _ _ E; discriminate|].
  repeat constructor; vm_compute; reflexivity.
Qed.

(** ** C27 in binary64: BFGS without a failed line search *)
Theorem C27_binary64_partial : forall L, let A := ArithF L in forall s P (h h' : heap spec_float) it,
  libm64 L -> valid h s -> Forall canonical (heap_nums h) -> bfgs_run s P h = (h', Val (SOk it)) ->
  (forall n k b hn d H, bfgs_steps s h n k b hn d H -> k = 0) ->
  (it = 0%N -> get_loss h' s = get_loss h s) /\ ((0 < it)%N -> SFleb (get_loss h' s) (get_loss h s) = true).
Proof. exact C27_binary64_lemma. Qed.
Theorem C27_binary64_steps : forall L, let A := ArithF L in forall s (h hn : heap spec_float) n b d H,
  libm64 L -> valid h s -> Forall canonical (heap_nums h) -> bfgs_steps s h n 0 b hn d H ->
  get_data hn s = d /\ (0 < n -> SFleb (get_loss hn s) (get_loss h s) = true).
Proof. exact C27_steps_lemma. Qed.
Example C27_binary64_example : let A := ArithF zlibm in
  let h := fix_heap (lit64 3 0) (lit64 4 0) (lit64 1 0) (lit64 5 1) in
  (exists h', bfgs_run fix_sketch bfgs_default h = (h', Val (SOk 1%N)) /\ SFltb (get_loss h' fix_sketch) (get_loss h fix_sketch) = true) /\
  (forall n k b hn d H, bfgs_steps fix_sketch h n k b hn d H -> k = 0) /\
  exists hn d H, bfgs_steps fix_sketch h 1 0 false hn d H.
Proof.
  intros A h. split; [exists (fst (bfgs_run fix_sketch bfgs_default h)); split; vm_compute; reflexivity|].
  split; [intros n k b hn d H Hs; exact (proj1 (near_states _ _ _ _ _ _ Hs))|].
  exact near_step.
Qed.

Print Assumptions C25_binary64.
Print Assumptions C25_binary64_steps.
Print Assumptions C25_canonical.
Print Assumptions C25_strict_refuted.
Print Assumptions C27_binary64_partial.
Print Assumptions C27_binary64_steps.
