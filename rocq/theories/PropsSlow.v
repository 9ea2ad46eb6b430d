(** * C79 and C80: how far Gauss-Newton and Levenberg-Marquardt can get on linear sketches *)
From Coq Require Import List ZArith NArith Arith Bool Lia Sorted Reals Lra.
From Verif Require Import Arith Vec Prim Cons Sketch Solve Api Spec SolverSpec ArithR ExactSpec MotionSpec LinearSpec SlowSpec
  HeapLemmas SolveLemmas WfLemmas DataLemmas SpecLemmas ExactLemmas RMat NlsMat MotionExamples PropsSolver PropsMotion SlowForms.
Import ListNotations.
Local Open Scope R_scope.

(** ** C79: no iteration shrinks the sum of squared losses by more than the factor (1 - step/2)^4 *)
Theorem C79_iteration : forall s (h : heap xR), valid h s -> finite_data h s -> all_con_finite h s -> linear_sketch h s ->
  forall pinv, exact_pinv pinv -> forall sol max st b, nls_params sol max st b -> 0 <= b -> forall h' i, 0 <= st <= 2 ->
  nls_run pinv sol s h = (h', Val (SOk i)) -> (1 - st / 2) ^ (4 * i) * sum_squares h s <= sum_squares h' s.
Proof. exact C79_count_lemma. Qed.
(** The same for the whole run, whatever it returns. *)
Theorem C79_run : forall s (h : heap xR), valid h s -> finite_data h s -> all_con_finite h s -> linear_sketch h s ->
  forall pinv, exact_pinv pinv -> forall sol max st b, nls_params sol max st b -> 0 <= b -> 0 <= st <= 2 ->
  (1 - st / 2) ^ (4 * N.to_nat max) * sum_squares h s <= sum_squares (fst (solve pinv sol s h)) s.
Proof. exact C79_limit_lemma. Qed.
(** So Gauss-Newton with its default parameters divides the loss of a sketch with m constraints by at most 30000 sqrt m ... *)
Theorem C79_default : forall s (h : heap xR), valid h s -> finite_data h s -> all_con_finite h s -> linear_sketch h s ->
  forall pinv, exact_pinv pinv -> forall l, get_loss h s = Fin l ->
  exists l', get_loss (fst (solve pinv (GaussNewton gn_default) s h)) s = Fin l' /\ l <= 30000 * sqrt (INR (length (s_cons s))) * l'.
Proof. exact C79_default_lemma. Qed.
(** ... and, when the loss is above 0.03 sqrt m at the start, it never gets below the threshold, uses up its budget and returns Ok. *)
Theorem C79_unsolved : forall s (h : heap xR), valid h s -> finite_data h s -> all_con_finite h s -> linear_sketch h s ->
  forall pinv, exact_pinv pinv -> forall l, get_loss h s = Fin l -> forall h' i, 3 / 100 * sqrt (INR (length (s_cons s))) < l ->
  gn_run pinv s gn_default h = (h', Val (SOk i)) -> i = N.to_nat 10000 /\ exists l', get_loss h' s = Fin l' /\ / 1000000 < l'.
Proof. exact C79_unsolved_lemma. Qed.
(** As long as the pseudo-inverse does not fail, both solvers return Ok on every linear sketch. *)
Theorem C79_ok : forall s (h : heap xR), valid h s -> finite_data h s -> all_con_finite h s -> linear_sketch h s ->
  forall pinv, exact_pinv pinv -> forall sol max st b, nls_params sol max st b -> 0 <= b -> never_fails pinv ->
  exists h' i, nls_run pinv sol s h = (h', Val (SOk i)).
Proof. exact run_ok. Qed.

Lemma line_never_fails : never_fails line_pinv.
Proof. intros n a eps _. unfold line_pinv. destruct (Req_EM_T _ 0); [eauto|]. destruct (list_eq_dec _ _ _); eauto. Qed.
Lemma hd_linear : linear_sketch hd_heap hd_sketch.
Proof. intros k [<-|[]]. reflexivity. Qed.
Lemma hd_loss : get_loss hd_heap hd_sketch = Fin 2.
Proof. cbv -[IZR Rplus Rmult Ropp Rminus Rinv Rdiv]. f_equal. lra. Qed.
Example C79_example : valid hd_heap hd_sketch /\ finite_data hd_heap hd_sketch /\ all_con_finite hd_heap hd_sketch /\ linear_sketch hd_heap hd_sketch /\
  exact_pinv line_pinv /\ never_fails line_pinv /\ get_loss hd_heap hd_sketch = Fin 2 /\ 3 / 100 * sqrt (INR (length (s_cons hd_sketch))) < 2 /\
  nls_params (GaussNewton gn_default) 10000 (/ 1000) 0 /\ exists h', gn_run line_pinv hd_sketch gn_default hd_heap = (h', Val (SOk (N.to_nat 10000))).
Proof.
  split; [exact hd_valid|]. split; [exact hd_finite_data|]. split; [exact hd_finite|]. split; [exact hd_linear|].
  split; [exact line_pinv_exact|]. split; [exact line_never_fails|]. split; [exact hd_loss|].
  assert (L : 3 / 100 * sqrt (INR (length (s_cons hd_sketch))) < 2) by (simpl; rewrite sqrt_1; lra).
  split; [exact L|]. split; [exact gn_default_params|].
  destruct (C79_ok _ _ hd_valid hd_finite_data hd_finite hd_linear _ line_pinv_exact _ _ _ _ gn_default_params (Rle_refl 0) line_never_fails) as (h' & i & E).
  exists h'. destruct (C79_unsolved _ _ hd_valid hd_finite_data hd_finite hd_linear _ line_pinv_exact _ hd_loss h' i L E) as [<- _]. exact E.
Qed.
(** The factor cannot be improved: one step of size 1 brings the sum of squares from 4 to 1/4. *)
Example C79_sharp : sum_squares hd_heap hd_sketch = 4 /\
  exists h', nls_run line_pinv (one_step None (Fin 0) (Fin 0) 1) hd_sketch hd_heap = (h', Val (SOk 1%nat)) /\ sum_squares h' hd_sketch = (1 - 1 / 2) ^ (4 * 1) * 4.
Proof.
  split; [cbv -[IZR Rplus Rmult Ropp Rminus Rinv Rdiv]; lra|].
  set (r := nls_run _ _ _ _). pattern r. set (P := fun _ => _). unfold r. clear r.
  cbv -[IZR Rplus Rmult Ropp Rminus Rinv Rdiv line_pinv P].
  match goal with |- context [line_pinv ?m ?e] => replace m with (map (map Fin) hd_normal) end.
  2:{ cbv -[IZR Rplus Rmult Ropp Rminus Rdiv]. eqs. }
  rewrite hd_pinv. cbv -[IZR Rplus Rmult Ropp Rminus Rinv Rdiv P]. unfold P.
  eexists. split; [reflexivity|]. cbv -[IZR Rplus Rmult Ropp Rminus Rinv Rdiv]. field.
Qed.

(** ** C80: the damping of Levenberg-Marquardt slows it down near a solution *)
(** After i iterations the inverse of the root of the sum of squares has grown by at most i times a constant:
    the loss decreases no faster than damping / (4 step i sqrt m). *)
Theorem C80_floor : forall s (h : heap xR), valid h s -> finite_data h s -> all_con_finite h s -> linear_sketch h s ->
  forall pinv, exact_pinv pinv -> forall sol max st b, nls_params sol max st b -> 0 <= b -> forall h' i, 0 < b -> 0 <= st < 2 ->
  0 < sum_squares h s -> nls_run pinv sol s h = (h', Val (SOk i)) -> let m := INR (length (s_cons s)) in
  0 < sum_squares h' s /\ / sqrt (sum_squares h' s) <= / sqrt (sum_squares h s) + INR i * (4 * st * sqrt m / (b * (1 - st / 2) ^ 2)).
Proof. exact C80_floor_lemma. Qed.
Theorem C80_default : forall s (h : heap xR), valid h s -> finite_data h s -> all_con_finite h s -> linear_sketch h s ->
  forall pinv, exact_pinv pinv -> forall l, get_loss h s = Fin l -> 0 < l ->
  exists l', get_loss (fst (solve pinv (LevenbergMarquardt lm_default) s h)) s = Fin l' /\ 0 < l' /\
    / l' <= sqrt (INR (length (s_cons s))) * (/ l + 44400000).
Proof. exact C80_default_lemma. Qed.
(** With at most 10000 constraints and a loss of 1e-7 or more at the start, Levenberg-Marquardt with its default
    parameters never reaches its threshold 1e-10: it runs through all its 1000 iterations and returns Ok. *)
Theorem C80_never_reaches_threshold : forall s (h : heap xR), valid h s -> finite_data h s -> all_con_finite h s -> linear_sketch h s ->
  forall pinv, exact_pinv pinv -> forall l, get_loss h s = Fin l -> forall h' i, / 10000000 <= l -> INR (length (s_cons s)) <= 10000 ->
  lm_run pinv s lm_default h = (h', Val (SOk i)) -> i = N.to_nat 1000 /\ exists l', get_loss h' s = Fin l' /\ / 10000000000 < l'.
Proof. exact C80_unsolved_lemma. Qed.
Example C80_example : get_loss hd_heap hd_sketch = Fin 2 /\ / 10000000 <= 2 /\ INR (length (s_cons hd_sketch)) <= 10000 /\
  0 < sum_squares hd_heap hd_sketch /\ nls_params (LevenbergMarquardt lm_default) 1000 (/ 10) (/ 100000) /\
  exists h', lm_run line_pinv hd_sketch lm_default hd_heap = (h', Val (SOk (N.to_nat 1000))).
Proof.
  split; [exact hd_loss|]. split; [lra|]. assert (L : INR (length (s_cons hd_sketch)) <= 10000) by (simpl; lra). split; [exact L|].
  split; [rewrite (proj1 C79_sharp); lra|]. split; [exact lm_default_params|].
  destruct (C79_ok _ _ hd_valid hd_finite_data hd_finite hd_linear _ line_pinv_exact _ _ _ _ lm_default_params ltac:(lra) line_never_fails) as (h' & i & E).
  exists h'. destruct (C80_never_reaches_threshold _ _ hd_valid hd_finite_data hd_finite hd_linear _ line_pinv_exact _ hd_loss h' i ltac:(lra) L E) as [<- _]. exact E.
Qed.

Print Assumptions C79_iteration.
Print Assumptions C79_run.
Print Assumptions C79_default.
Print Assumptions C79_unsolved.
Print Assumptions C79_ok.
Print Assumptions C80_floor.
Print Assumptions C80_default.
Print Assumptions C80_never_reaches_threshold.
