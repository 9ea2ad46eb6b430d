(** * C92: how exactly angles are measured in binary64 *)
From Coq Require Import List ZArith NArith Arith Bool Reals Lra Lia Floats.SpecFloat.
From Verif Require Import Arith ArithR ArithF Vec Prim Cons Sketch Solve Api Spec SerdeSpec ExactSpec RoundSpec AccuracySpec AccuracyForms AccuracyExamples
  SpecLemmas SolverWitness SolveLemmas SolverForms PropsSolver AngleSpec AngleForms AngleExamples.
Import ListNotations.
Local Open Scope R_scope.

(** current_angle() is within 2^-22 of the angle between the arms, and within 2^-46 divided by the sine of that angle. *)
Theorem C92_angle : forall (L : libm) (M : R) (h : heap spec_float) p1 p2 pm, let A := ArithF L in
  accurate_acos L -> M <= 2 ^ 100 -> placed L M h p1 -> placed L M h p2 -> placed L M h pm ->
  long (arm h pm p1) -> long (arm h pm p2) ->
  let err := Rabs (value (current_angle h p1 p2 pm) - angle_at h p1 p2 pm) in
  finite64 (current_angle h p1 p2 pm) /\ err <= / 2 ^ 22 /\ err * sin (angle_at h p1 p2 pm) <= / 2 ^ 46.
Proof.
  intros L M h p1 p2 pm A AC M2 P1 P2 Pm L1 L2 err. destruct (angle_lemma L AC M h M2 p1 p2 pm P1 P2 Pm L1 L2) as (F & E & G). split; [exact F|]. split; [|exact G].
  eapply Rle_trans; [exact E|]. simpl. lra.
Qed.
(** With an arm shorter than 10^-6 it is zero. *)
Theorem C92_degenerate : forall (L : libm) (M : R) (h : heap spec_float) p1 p2 pm, let A := ArithF L in
  M <= 2 ^ 100 -> placed L M h p1 -> placed L M h p2 -> placed L M h pm ->
  short (arm h pm p1) \/ short (arm h pm p2) -> current_angle h p1 p2 pm = S754_zero false.
Proof. intros L M h p1 p2 pm A M2 P1 P2 Pm S. exact (degenerate_lemma L M h M2 p1 p2 pm P1 P2 Pm S). Qed.
(** The 2^-22 is not an artefact of the proof: two arms that coincide are at an angle of 2^-26 or more. *)
Theorem C92_coarse : forall (L : libm), let A := ArithF L in accurate_acos L ->
  exists M h p1 p2 pm, M <= 2 ^ 100 /\ placed L M h p1 /\ placed L M h p2 /\ placed L M h pm /\ long (arm h pm p1) /\ long (arm h pm p2) /\
  p_data (getP h p1) = p_data (getP h p2) /\ angle_at h p1 p2 pm = 0 /\ / 2 ^ 26 <= value (current_angle h p1 p2 pm).
Proof.
  intros L A AC. exists ang_M, ang_heap, 1%nat, 2%nat, 0%nat. destruct ang_M_range as [_ R]. assert (M0 : measurable_any L ang_M ang_heap 0%nat) by (apply ang_measurable; simpl; auto).
  destruct M0 as (P1 & P2 & Pm & _). split; [exact R|]. split; [exact P1|]. split; [exact P2|]. split; [exact Pm|].
  split; [exact ang_long1|]. split; [exact ang_long1|]. split; [reflexivity|]. split; [exact coincide_exact | exact (coincide_lemma L AC)].
Qed.
(** The square root of twice the computed loss is the distance from the constraint to its goal up to [slack], for every kind of constraint. *)
Theorem C92_loss : forall (L : libm) (M : R) (h : heap spec_float) k, let A := ArithF L in
  accurate_sincos L -> accurate_acos L -> / 2 ^ 100 <= M -> M <= 2 ^ 100 -> measurable_any L M h k ->
  finite64 (loss_value h (getK h k)) /\ 0 <= value (loss_value h (getK h k)) /\
  Rabs (sqrt (2 * value (loss_value h (getK h k))) - discrepancy h k) <= slack M (getK h k).
Proof. intros L M h k A SC AC M1 M2 Me. destruct (any_good L AC M h M2 SC M1 k Me) as (G1 & [G2 _] & G3). auto. Qed.
(** The computed total bounds every distance, for any number of constraints of any kind. *)
Theorem C92_certifies : forall (L : libm) (M : R) (h : heap spec_float) s, let A := ArithF L in
  accurate_sincos L -> accurate_acos L -> / 2 ^ 100 <= M -> M <= 2 ^ 100 -> (forall k, In k (s_cons s) -> measurable_any L M h k) ->
  finite64 (get_loss h s) /\
  forall k, In k (s_cons s) -> discrepancy h k <= sqrt (2 * value (get_loss h s)) + slack M (getK h k).
Proof. intros L M h s A SC AC M1 M2 Ms. exact (certifies_any L AC M h M2 SC M1 s Ms). Qed.
(** What it means that gradient descent or BFGS has stopped because of its loss threshold. *)
Theorem C92_gradient_descent : forall (L : libm) (M : R) s P (h h' : heap spec_float) n, let A := ArithF L in
  accurate_sincos L -> accurate_acos L -> / 2 ^ 100 <= M -> M <= 2 ^ 100 -> valid h s -> gd_run s P h = (h', Val (SOk n)) ->
  (forall k, In k (s_cons s) -> measurable_any L M h' k) -> finite64 (gd_min_loss P) ->
  (forall k, In k (s_cons s) -> discrepancy h' k <= sqrt (2 * value (gd_min_loss P)) + slack M (getK h' k)) \/
  (exists g, snd (get_gradient s h') = Val g /\ flt (vnorm g) (gd_min_grad P) = true) \/
  n = N.to_nat (gd_max P).
Proof.
  intros L M s P h h' n A SC AC M1 M2 V R Ms F. destruct (C22_gradient_descent s P h h' n V R) as [C|C]; [|right; exact C].
  left. exact (below_any L AC M h' M2 SC M1 s Ms _ F C).
Qed.
Theorem C92_bfgs : forall (L : libm) (M : R) s P (h h' : heap spec_float) n, let A := ArithF L in
  accurate_sincos L -> accurate_acos L -> / 2 ^ 100 <= M -> M <= 2 ^ 100 -> valid h s -> bfgs_run s P h = (h', Val (SOk n)) ->
  (forall k, In k (s_cons s) -> measurable_any L M h' k) -> finite64 (bf_min_loss P) ->
  (forall k, In k (s_cons s) -> discrepancy h' k <= sqrt (2 * value (bf_min_loss P)) + slack M (getK h' k)) \/
  (exists g, snd (get_gradient s h') = Val g /\ flt (vnorm_inf g) (bf_grad P) = true) \/
  n = bf_max P.
Proof.
  intros L M s P h h' n A SC AC M1 M2 V R Ms F. destruct (C22_bfgs s P h h' n V R) as [C|C]; [|right; exact C].
  left. exact (below_any L AC M h' M2 SC M1 s Ms _ F C).
Qed.

(** a reachable sketch with three angles, one of them degenerate, and a distance *)
Example C92_example : let A := ArithF angle_libm in accurate_sincos angle_libm /\ accurate_acos angle_libm /\ (/ 2 ^ 100 <= ang_M <= 2 ^ 100) /\
  (exists rs, run nopinv init ang_ops rs (ang_heap, ang_sketch)) /\ valid ang_heap ang_sketch /\ length (s_cons ang_sketch) = 4%nat /\
  (forall k, In k (s_cons ang_sketch) -> measurable_any angle_libm ang_M ang_heap k) /\
  long (arm ang_heap 0%nat 1%nat) /\ long (arm ang_heap 0%nat 3%nat) /\ short (arm ang_heap 1%nat 2%nat).
Proof.
  intros A. split; [exact angle_sincos|]. split; [exact angle_acos|]. split; [exact ang_M_range|]. split; [exact (ang_run angle_libm)|]. split; [exact (ang_valid angle_libm)|]. split; [reflexivity|].
  split; [apply ang_measurable|]. split; [exact ang_long1|]. split; [exact ang_long3 | exact ang_short].
Qed.
(** a run of each solver on a sketch with an angle *)
Example C92_solver_example : forall L, let A := ArithF L in
  valid (stop_heap i3 z0) stop_sketch /\ gd_run stop_sketch gd_default (stop_heap i3 z0) = (stop_heap o1 z0, Val (SOk 1%nat)) /\
  bfgs_run stop_sketch bfgs_default (stop_heap i3 z0) = (stop_heap o1 z0, Val (SOk 1%N)) /\
  (forall k, In k (s_cons stop_sketch) -> measurable_any L ang_M (stop_heap o1 z0) k) /\
  finite64 (gd_min_loss (@gd_default _ A)) /\ finite64 (bf_min_loss (@bfgs_default _ A)).
Proof.
  intros L A. split; [exact (stop_valid L)|]. split; [exact (stop_gd L)|]. split; [exact (stop_bfgs L)|].
  split; [intros k; apply stop_measurable; apply ang_within|]. split; split; reflexivity.
Qed.

Print Assumptions C92_angle.
Print Assumptions C92_degenerate.
Print Assumptions C92_coarse.
Print Assumptions C92_loss.
Print Assumptions C92_certifies.
Print Assumptions C92_gradient_descent.
Print Assumptions C92_bfgs.
