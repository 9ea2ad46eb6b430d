(** * C84: what the losses computed in binary64 say about the geometry *)
From Coq Require Import List ZArith NArith Arith Bool Reals Lra Lia Floats.SpecFloat.
From Verif Require Import Arith ArithR ArithF Vec Prim Cons Sketch Solve Api Spec SerdeSpec ExactSpec RoundSpec AccuracySpec AccuracyForms AccuracyExamples
  SpecLemmas SolverWitness SolveLemmas SolverForms PropsSolver.
Import ListNotations.
Local Open Scope R_scope.

(** The square root of twice the computed loss is the distance from the constraint to its goal, up to 2^-47 of the size of the sketch. *)
Theorem C84_loss : forall (L : libm) (M : R) (h : heap spec_float) k, let A := ArithF L in
  accurate_sincos L -> / 2 ^ 100 <= M -> M <= 2 ^ 100 -> measurable L M h k ->
  finite64 (loss_value h (getK h k)) /\ 0 <= value (loss_value h (getK h k)) /\
  Rabs (sqrt (2 * value (loss_value h (getK h k))) - discrepancy h k) <= unit_of M (getK h k) / 2 ^ 47.
Proof. intros L M h k A SC M1 M2 Me. destruct (loss_good L SC M h M1 M2 k Me) as (G1 & [G2 _] & G3). auto. Qed.
(** The computed total bounds every distance, for any number of constraints. *)
Theorem C84_certifies : forall (L : libm) (M : R) (h : heap spec_float) s, let A := ArithF L in
  accurate_sincos L -> / 2 ^ 100 <= M -> M <= 2 ^ 100 -> (forall k, In k (s_cons s) -> measurable L M h k) ->
  finite64 (get_loss h s) /\
  forall k, In k (s_cons s) -> discrepancy h k <= sqrt (2 * value (get_loss h s)) + unit_of M (getK h k) / 2 ^ 47.
Proof. intros L M h s A SC M1 M2 Ms. exact (certifies_lemma L SC M h M1 M2 s Ms). Qed.
(** Conversely, a sketch whose constraints hold up to [D] has a small computed total. *)
Theorem C84_small : forall (L : libm) (M D : R) (h : heap spec_float) s, let A := ArithF L in
  accurate_sincos L -> / 2 ^ 100 <= M -> M <= 2 ^ 100 -> (forall k, In k (s_cons s) -> measurable L M h k) ->
  0 <= D -> INR (length (s_cons s)) <= 2 ^ 50 -> (forall k, In k (s_cons s) -> discrepancy h k <= D) ->
  value (get_loss h s) <= INR (length (s_cons s)) * (D + Rmax 1 M / 2 ^ 47) ^ 2.
Proof. intros L M D h s A SC M1 M2 Ms. exact (small_lemma L SC M h M1 M2 s Ms D). Qed.
(** What it means that gradient descent or BFGS has stopped because of its loss threshold. *)
Theorem C84_gradient_descent : forall (L : libm) (M : R) s P (h h' : heap spec_float) n, let A := ArithF L in
  accurate_sincos L -> / 2 ^ 100 <= M -> M <= 2 ^ 100 -> valid h s -> gd_run s P h = (h', Val (SOk n)) ->
  (forall k, In k (s_cons s) -> measurable L M h' k) -> finite64 (gd_min_loss P) ->
  (forall k, In k (s_cons s) -> discrepancy h' k <= sqrt (2 * value (gd_min_loss P)) + unit_of M (getK h' k) / 2 ^ 47) \/
  (exists g, snd (get_gradient s h') = Val g /\ flt (vnorm g) (gd_min_grad P) = true) \/
  n = N.to_nat (gd_max P).
Proof.
  intros L M s P h h' n A SC M1 M2 V R Ms F. destruct (C22_gradient_descent s P h h' n V R) as [C|C]; [|right; exact C].
  left. exact (below_lemma L SC M h' s M1 M2 Ms _ F C).
Qed.
Theorem C84_bfgs : forall (L : libm) (M : R) s P (h h' : heap spec_float) n, let A := ArithF L in
  accurate_sincos L -> / 2 ^ 100 <= M -> M <= 2 ^ 100 -> valid h s -> bfgs_run s P h = (h', Val (SOk n)) ->
  (forall k, In k (s_cons s) -> measurable L M h' k) -> finite64 (bf_min_loss P) ->
  (forall k, In k (s_cons s) -> discrepancy h' k <= sqrt (2 * value (bf_min_loss P)) + unit_of M (getK h' k) / 2 ^ 47) \/
  (exists g, snd (get_gradient s h') = Val g /\ flt (vnorm_inf g) (bf_grad P) = true) \/
  n = bf_max P.
Proof.
  intros L M s P h h' n A SC M1 M2 V R Ms F. destruct (C22_bfgs s P h h' n V R) as [C|C]; [|right; exact C].
  left. exact (below_lemma L SC M h' s M1 M2 Ms _ F C).
Qed.
(** Without the error term this is false both ways: a constraint that holds can have a positive loss, and one that does not hold a loss of zero. *)
Theorem C84_zero_refuted : forall L, let A := ArithF L in
  (exists M h k, / 2 ^ 100 <= M <= 2 ^ 100 /\ measurable L M h k /\ discrepancy h k = 0 /\ 0 < value (loss_value h (getK h k))) /\
  (exists M h k, / 2 ^ 100 <= M <= 2 ^ 100 /\ measurable L M h k /\ 0 < discrepancy h k /\ loss_value h (getK h k) = S754_zero false).
Proof.
  intros L A. pose proof acc_M_range as R. split.
  - exists acc_M, acc_heap, 0%nat. destruct (acc_first L) as [B C]. split; auto. split; [apply acc_measurable; simpl; auto|]. auto.
  - exists acc_M, acc_heap, 1%nat. destruct (acc_second L) as (B & C & D). split; auto. split; [apply acc_measurable; simpl; auto|]. split; [rewrite B; exact C | exact D].
Qed.

(** four constraints, among them one on an arc and one on directions *)
Example C84_example : let A := ArithF trig_libm in accurate_sincos trig_libm /\ (/ 2 ^ 100 <= acc_M <= 2 ^ 100) /\
  (exists rs, run nopinv init acc_ops rs (acc_heap, acc_sketch)) /\ valid acc_heap acc_sketch /\ length (s_cons acc_sketch) = 4%nat /\
  (forall k, In k (s_cons acc_sketch) -> measurable trig_libm acc_M acc_heap k).
Proof.
  intros A. split; [exact trig_accurate|]. split; [exact acc_M_range|]. split; [exact (acc_run trig_libm)|]. split; [exact (acc_valid trig_libm)|]. split; [reflexivity|].
  apply acc_measurable.
Qed.
(** a run of each solver that stops because of its loss threshold *)
Example C84_solver_example : forall L, let A := ArithF L in let h := fix_heap (lit64 3 0) (lit64 4 0) (lit64 1 0) (lit64 5 1) in
  valid h fix_sketch /\ (exists h', gd_run fix_sketch gd_default h = (h', Val (SOk 1%nat)) /\ forall k, In k (s_cons fix_sketch) -> measurable L 4 h' k) /\
  (exists h', bfgs_run fix_sketch bfgs_default h = (h', Val (SOk 1%N)) /\ forall k, In k (s_cons fix_sketch) -> measurable L 4 h' k) /\
  finite64 (gd_min_loss (@gd_default _ A)) /\ finite64 (bf_min_loss (@bfgs_default _ A)).
Proof.
  intros L A h. assert (W : forall x, fin64 x = true -> valid_binary 53 1024 x = true -> SFleb (SFabs x) (S754_finite false 4503599627370496 (-50)) = true -> within 4 x) by (intros x F V B; apply within_small; [split; assumption | exact B]).
  split; [apply fix_valid; reflexivity|]. split; [|split; [|split; split; reflexivity]].
  - match goal with |- exists h', ?t = _ /\ _ => let x := eval vm_compute in (fst t) in exists x end. split; [vm_cast_no_check (eq_refl (gd_run fix_sketch gd_default h))|]. intros k [<-|[]]. apply fix_measurable; apply W; reflexivity.
  - match goal with |- exists h', ?t = _ /\ _ => let x := eval vm_compute in (fst t) in exists x end. split; [vm_cast_no_check (eq_refl (bfgs_run fix_sketch bfgs_default h))|]. intros k [<-|[]]. apply fix_measurable; apply W; reflexivity.
Qed.

Print Assumptions C84_loss.
Print Assumptions C84_certifies.
Print Assumptions C84_small.
Print Assumptions C84_gradient_descent.
Print Assumptions C84_bfgs.
Print Assumptions C84_zero_refuted.
