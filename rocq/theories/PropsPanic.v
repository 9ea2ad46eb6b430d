(** * C81: why calls panic *)
From Coq Require Import List ZArith NArith Arith Bool Lia Reals Lra.
From Verif Require Import Arith Vec Prim Cons Sketch Solve Api Spec SerdeSpec NumSpec FiniteSpec SolverSpec ArithR ExactSpec MotionSpec PanicSpec
  SpecLemmas DataLemmas MotionExamples BookWitness PropsSolver PropsMotion PanicLemmas PanicExact.
Import ListNotations.
Local Open Scope R_scope.

(** In every arithmetic a call other than a solver run or a gradient check panics exactly for the reason that [why_panic] lists:
    a number that is not finite among the checked arguments, a vector of the wrong length, or a gradient entry that is not finite. *)
Theorem C81_panics : forall {F} {A : Arith F} (pinv : mat F -> F -> pinv_res (mat F)) h s o h' s' r, valid h s ->
  step pinv (h, s) o = ((h', s'), r) -> match o with Api.Solve _ | CheckGradients _ _ _ => False | _ => True end ->
  (r = RetPanic <-> why_panic o h h' s).
Proof. intros F A. exact C81_lemma. Qed.

(** In exact arithmetic, after any history of calls whose unchecked numbers are finite, a call with finite numbers that panics
    leaves a state in which the reason of [why_panic_exact] holds.  In particular a solver only panics in front of an
    equal-length constraint on a line of length zero, or on a sketch without parameters. *)
Theorem C81_exact : forall pinv os rs (h h' : heap xR) s s' o, exact_pinv pinv -> panics_only_on_empty pinv ->
  run pinv init os rs (h, s) -> few (length os) -> Forall (fun o => Forall fin (unchecked o)) os ->
  op_ok h o -> Forall fin (op_nums o) -> step pinv (h, s) o = ((h', s'), RetPanic) -> s' = s /\ why_panic_exact o h' s'.
Proof. exact C81_history_lemma. Qed.
(** The reasons suffice: whenever one holds before the call, the call panics.  This includes gradient descent. *)
Theorem C81_converse : forall pinv os rs (h h' : heap xR) s s' o r,
  run pinv init os rs (h, s) -> few (length os) -> Forall (fun o => Forall fin (unchecked o)) os ->
  op_ok h o -> step pinv (h, s) o = ((h', s'), r) ->
  match o with Api.Solve (GradientBased _) => True | Api.Solve _ | CheckGradients _ _ _ => False | _ => True end ->
  why_panic_exact o h s -> r = RetPanic.
Proof. exact C81_back_lemma. Qed.
(** A sketch without equal-length constraints and with at least one parameter can be solved without a panic. *)
Theorem C81_no_equal_length : forall pinv os rs (h h' : heap xR) s s' sol r, exact_pinv pinv -> panics_only_on_empty pinv ->
  run pinv init os rs (h, s) -> few (length os) -> Forall (fun o => Forall fin (unchecked o)) os ->
  (forall k l1 l2, In k (s_cons s) -> getK h k <> EqualLength l1 l2) -> get_n_dofs h s <> 0%nat -> Forall fin (solver_nums sol) ->
  step pinv (h, s) (Api.Solve sol) = ((h', s'), r) -> r <> RetPanic.
Proof. exact C81_free_lemma. Qed.

(** a pseudo-inverse that panics on an empty matrix, as nalgebra's does *)
Definition nal_pinv (m : mat xR) (eps : xR) : pinv_res (mat xR) := match m with [] => PPanic | _ => line_pinv m eps end.
Lemma nal_exact : exact_pinv nal_pinv.
Proof. intros n a eps Q Sy E. apply (line_pinv_exact n a eps Q Sy). destruct a; [discriminate | exact E]. Qed.
Lemma nal_panics : panics_only_on_empty nal_pinv.
Proof.
  intros m eps E. destruct m as [|r m]; auto. unfold nal_pinv, line_pinv in E.
  destruct (Req_EM_T _ 0); [discriminate|]. destruct (list_eq_dec _ _ _); discriminate.
Qed.
Definition flat_ops : list (op xR) :=
  [AddPoint2 (Fin 0) (Fin 0); AddPoint2 (Fin 0) (Fin 0); AddPoint2 (Fin 3) (Fin 4); AddLine 0%nat 1%nat; AddLine 0%nat 2%nat; Constrain (EqualLength 0%nat 1%nat)].
Definition flat_heap : heap xR :=
  mkHeap [Point2_new (Fin 0) (Fin 0); Point2_new (Fin 0) (Fin 0); Point2_new (Fin 3) (Fin 4)] [mkLine 0%nat 1%nat; mkLine 0%nat 2%nat] [] [] [EqualLength 0%nat 1%nat].
Definition flat_sketch : sketch :=
  mkSketch [(0%N, PPoint 0%nat); (1%N, PPoint 1%nat); (2%N, PPoint 2%nat); (3%N, PLine 0%nat); (4%N, PLine 1%nat)] 5%N [0%nat].
Lemma flat_run : run nal_pinv init flat_ops [RetLoc 0; RetLoc 1; RetLoc 2; RetLoc 0; RetLoc 1; RetLoc 0]%nat (flat_heap, flat_sketch).
Proof. unfold flat_ops. goS. Qed.
Lemma flat_collapsed : collapsed flat_heap flat_sketch.
Proof.
  exists 0%nat. split; [simpl; auto|]. exists 0%nat, 1%nat. split; [reflexivity|]. left. cbv -[IZR Rplus Rmult Ropp Rminus Rinv Rdiv]. f_equal; lra.
Qed.
(** Each kind of panic: a wrong length, a number that is not finite, an equal-length constraint on a line of length zero,
    and Gauss-Newton on an empty sketch. *)
Example C81_example : exact_pinv nal_pinv /\ panics_only_on_empty nal_pinv /\
  Forall (fun o => Forall fin (unchecked o)) flat_ops /\
  let h := flat_heap in let s := flat_sketch in exists rs, run nal_pinv init flat_ops rs (h, s) /\
    (exists st, step nal_pinv (h, s) (SetData [Fin 1]) = (st, RetPanic)) /\
    (exists st, step nal_pinv (h, s) (Constrain (FixPoint 0%nat NaN (Fin 1))) = (st, RetPanic)) /\
    (exists st, step nal_pinv (h, s) (Api.Solve (GradientBased gd_default)) = (st, RetPanic)) /\
    (exists st, step nal_pinv (h, s) (UpdateGradient 0%nat) = (st, RetPanic)) /\
    (exists st, step nal_pinv (h, s) GetJacobian = (st, RetPanic)) /\
    (exists st, step nal_pinv init (Api.Solve (one_step None (Fin 0) (Fin 0) 1)) = (st, RetPanic)).
Proof.
  split; [exact nal_exact|]. split; [exact nal_panics|]. assert (U : Forall (fun o => Forall fin (unchecked o)) flat_ops) by repeat constructor. split; [exact U|].
  cbv zeta. eexists. split; [exact flat_run|].
  pose proof flat_collapsed as W. assert (Z : zero_length (cfg_of flat_heap) flat_heap (getK flat_heap 0%nat)) by (destruct W as (k & [<-|[]] & Z); exact Z).
  assert (G : forall o, op_ok flat_heap o -> match o with Api.Solve (GradientBased _) => True | Api.Solve _ | CheckGradients _ _ _ => False | _ => True end ->
     why_panic_exact o flat_heap flat_sketch -> exists st, step nal_pinv (flat_heap, flat_sketch) o = (st, RetPanic)).
  { intros o OK Ho Wy. destruct (step nal_pinv (flat_heap, flat_sketch) o) as [[h' s'] r] eqn:E. exists (h', s'). f_equal.
    exact (C81_converse nal_pinv flat_ops _ _ h' _ s' o r flat_run eq_refl U OK E Ho Wy). }
  split; [apply G; try exact I; cbn [why_panic_exact]; discriminate|]. split; [eexists; reflexivity|].
  split; [apply G; try exact I; exact W|]. split; [apply G; try exact I; [simpl; lia | exact Z]|]. split; [apply G; try exact I; exact W|]. eexists. reflexivity.
Qed.
(** a sketch that no solver panics on *)
Example C81_no_equal_length_example : exists rs,
  let os := [AddPoint2 (Fin 0) (Fin 0); AddPoint2 (Fin 3) (Fin 0); AddPoint2 (Fin 7) (Fin 7); Constrain (HorizontalDistance 0%nat 1%nat (Fin 1))] in
  run nal_pinv init os rs (hd_heap, hd_sketch) /\ Forall (fun o => Forall fin (unchecked o)) os /\
  (forall k l1 l2, In k (s_cons hd_sketch) -> getK hd_heap k <> EqualLength l1 l2) /\ get_n_dofs hd_heap hd_sketch <> 0%nat /\
  Forall fin (solver_nums (GaussNewton gn_default)).
Proof.
  eexists. cbv zeta. split; [go|]. split; [repeat constructor|]. split; [intros k l1 l2 [<-|[]]; discriminate|]. split; [discriminate | repeat constructor].
Qed.

Print Assumptions C81_panics.
Print Assumptions C81_exact.
Print Assumptions C81_converse.
Print Assumptions C81_no_equal_length.
