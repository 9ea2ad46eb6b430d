(** * C86: what the gradients computed in binary64 say, and where gradient descent and BFGS stop *)
From Coq Require Import List ZArith NArith Arith Bool Reals Lra Lia Floats.SpecFloat.
From Verif Require Import Arith ArithR ArithF Vec Prim Cons Sketch Solve Api Spec SerdeSpec SpecLemmas ExactSpec RoundSpec AccuracySpec AccuracyExamples SlopeSpec SlopeRun SlopeExamples SolverWitness.
Import ListNotations.
Local Open Scope R_scope.

(** The computed gradient of m constraints is the derivative of the exact loss, up to m^2 2^-42 of the unit [D] in every entry. *)
Theorem C86_gradient : forall (L : libm) (M D : R) (h : heap spec_float) s, let A := ArithF L in let m := INR (length (s_cons s)) in
  accurate_sincos L -> / 2 ^ 100 <= M -> M <= 2 ^ 100 -> / 2 ^ 150 <= D -> D <= 2 ^ 200 -> valid h s ->
  (forall k, In k (s_cons s) -> smooth L M h k) -> (forall k, In k (s_cons s) -> slope_unit M h k <= D) -> m <= 2 ^ 40 ->
  exists h' g G, get_gradient s h = (h', Val g) /\ length G = get_n_dofs h s /\
    (forall d, length d = get_n_dofs h s ->
       derivable_pt_lim (fun t => vx (get_loss (moved (exact_heap h) s d t) s)) 0 (dotL G d)) /\
    Forall2 (fun x a => finite64 x /\ Rabs (value x - a) <= m * m * D / 2 ^ 42) g G.
Proof. intros L M D h s A m SC M1 M2 D1 D2 V Sm SD Hm. exact (slope_lemma L SC M D h s M1 M2 D1 D2 V Sm SD Hm). Qed.
(** What Ok from gradient descent means in binary64, on sketches without plateaus: every constraint holds up to an error
    given by the thresholds, or the budget is used up. *)
Theorem C86_gradient_descent : forall (L : libm) (M D K : R) s P (h h' : heap spec_float) r, let A := ArithF L in
  let m := INR (length (s_cons s)) in let n := INR (get_n_dofs h s) in
  accurate_sincos L -> / 2 ^ 100 <= M -> M <= 2 ^ 100 -> / 2 ^ 150 <= D -> D <= 2 ^ 200 -> valid h s -> no_plateau L K h s ->
  gd_run s P h = (h', Val (SOk r)) ->
  (forall k, In k (s_cons s) -> smooth L M h' k) -> (forall k, In k (s_cons s) -> slope_unit M h' k <= D) ->
  m <= 2 ^ 40 -> n <= 2 ^ 45 -> finite64 (gd_min_loss P) -> finite64 (gd_min_grad P) ->
  (forall k, In k (s_cons s) -> discrepancy h' k <= sqrt (2 * value (gd_min_loss P)) + unit_of M (getK h' k) / 2 ^ 47) \/
  (forall k, In k (s_cons s) -> discrepancy h' k <= K * (8 / 7 * value (gd_min_grad P) + sqrt n * (m * m * D / 2 ^ 41))) \/
  r = N.to_nat (gd_max P).
Proof. intros L M D K s P h h' r A m n SC M1 M2 D1 D2 V NP E Sm SD Hm Hn F1 F2. exact (gd_stops L SC M D K s h h' M1 M2 D1 D2 V NP Sm SD Hm P r E F1 F2 Hn). Qed.
(** BFGS looks at the largest entry of the gradient. *)
Theorem C86_bfgs : forall (L : libm) (M D K : R) s P (h h' : heap spec_float) r, let A := ArithF L in
  let m := INR (length (s_cons s)) in let n := INR (get_n_dofs h s) in
  accurate_sincos L -> / 2 ^ 100 <= M -> M <= 2 ^ 100 -> / 2 ^ 150 <= D -> D <= 2 ^ 200 -> valid h s -> no_plateau L K h s ->
  bfgs_run s P h = (h', Val (SOk r)) ->
  (forall k, In k (s_cons s) -> smooth L M h' k) -> (forall k, In k (s_cons s) -> slope_unit M h' k <= D) ->
  m <= 2 ^ 40 -> finite64 (bf_min_loss P) -> finite64 (bf_grad P) ->
  (forall k, In k (s_cons s) -> discrepancy h' k <= sqrt (2 * value (bf_min_loss P)) + unit_of M (getK h' k) / 2 ^ 47) \/
  (forall k, In k (s_cons s) -> discrepancy h' k <= K * (sqrt n * (value (bf_grad P) + m * m * D / 2 ^ 42))) \/
  r = bf_max P.
Proof. intros L M D K s P h h' r A m n SC M1 M2 D1 D2 V NP E Sm SD Hm F1 F2. exact (bfgs_stops L SC M D K s h h' M1 M2 D1 D2 V NP Sm SD Hm P r E F1 F2). Qed.
(** On other sketches the gradient can be exactly zero although no constraint holds to within a whole unit. *)
Theorem C86_plateau_refuted : forall L, let A := ArithF L in
  exists h s h1 g, (exists os rs, run nopinv init os rs (h, s)) /\ valid h s /\ s_cons s <> [] /\ (forall k, In k (s_cons s) -> smooth L 4 h k) /\
    get_gradient s h = (h1, Val g) /\ vnorm g = S754_zero false /\ vnorm_inf g = S754_zero false /\
    forall k, In k (s_cons s) -> discrepancy h k = 1.
Proof.
  intros L A. destruct (torn_flat L) as (h1 & g & E1 & E2 & E3). destruct (torn_run L) as [rs R]. exists torn_heap, torn_sketch, h1, g.
  split; [eexists; exists rs; exact R|]. split; [exact (reachable_valid nopinv _ _ _ R eq_refl)|]. split; [discriminate|]. split; [apply torn_smooth|]. split; [exact E1|]. split; [exact E2|]. split; [exact E3|]. exact torn_apart.
Qed.

(** four constraints, among them one on an arc and one on directions *)
Example C86_example : let A := ArithF trig_libm in accurate_sincos trig_libm /\ (/ 2 ^ 100 <= acc_M <= 2 ^ 100) /\ (/ 2 ^ 150 <= 2 ^ 80 <= 2 ^ 200) /\
  valid acc_heap acc_sketch /\ length (s_cons acc_sketch) = 4%nat /\
  (forall k, In k (s_cons acc_sketch) -> smooth trig_libm acc_M acc_heap k) /\ (forall k, In k (s_cons acc_sketch) -> slope_unit acc_M acc_heap k <= 2 ^ 80).
Proof.
  intros A. split; [exact trig_accurate|]. split; [exact acc_M_range|]. split; [exact p80|]. split; [exact (acc_valid trig_libm)|]. split; [reflexivity|]. split; [apply acc_smooth | apply acc_unit].
Qed.
(** a run of each solver that stops because of its gradient threshold; the loss threshold is zero, so no loss is below it *)
Example C86_solver_example : forall L, let A := ArithF L in let h := fix_heap (lit64 3 0) (lit64 4 0) (lit64 1 0) (lit64 5 1) in
  let P := mkGD 10%N (S754_zero false) (lit64 1 1) in let Q := mkBFGS 10%N (S754_zero false) (lit64 1 1) in
  valid h fix_sketch /\ no_plateau L 1 h fix_sketch /\
  (exists h', gd_run fix_sketch P h = (h', Val (SOk 1%nat)) /\ forall k, In k (s_cons fix_sketch) -> smooth L 4 h' k /\ slope_unit 4 h' k <= 4) /\
  (exists h', bfgs_run fix_sketch Q h = (h', Val (SOk 1%N)) /\ forall k, In k (s_cons fix_sketch) -> smooth L 4 h' k /\ slope_unit 4 h' k <= 4) /\
  finite64 (gd_min_loss P) /\ finite64 (gd_min_grad P) /\ finite64 (bf_min_loss Q) /\ finite64 (bf_grad Q).
Proof.
  intros L A h P Q. assert (W : forall x, fin64 x = true -> valid_binary 53 1024 x = true -> SFleb (SFabs x) (S754_finite false 4503599627370496 (-50)) = true -> within 4 x) by (intros x F V B; apply within_small; [split; assumption | exact B]).
  split; [apply fix_valid; reflexivity|]. split; [apply fix_no_plateau; reflexivity|]. split; [|split; [|repeat split; reflexivity]].
  - match goal with |- exists h', ?t = _ /\ _ => let x := eval vm_compute in (fst t) in exists x end. split; [vm_cast_no_check (eq_refl (gd_run fix_sketch P h))|]. intros k [<-|[]]. split; [|apply Rle_refl]. split; [|exact I]. apply fix_measurable; apply W; reflexivity.
  - match goal with |- exists h', ?t = _ /\ _ => let x := eval vm_compute in (fst t) in exists x end. split; [vm_cast_no_check (eq_refl (bfgs_run fix_sketch Q h))|]. intros k [<-|[]]. split; [|apply Rle_refl]. split; [|exact I]. apply fix_measurable; apply W; reflexivity.
Qed.

Print Assumptions C86_gradient.
Print Assumptions C86_gradient_descent.
Print Assumptions C86_bfgs.
Print Assumptions C86_plateau_refuted.
