(** * C78: gradient descent on small linear sketches *)
From Coq Require Import List ZArith NArith Arith Bool Lia Sorted Reals Lra.
From Verif Require Import Arith Vec Prim Cons Sketch Solve Api Spec SolverSpec ArithR ExactSpec LinearSpec
  HeapLemmas SolveLemmas WfLemmas DataLemmas SpecLemmas ExactLemmas GradLemmas LossLemmas RMat SearchLemmas StepLemmas
  ExactRun SolverForms PropsSolver PropsConverge LinearLemmas LinearForms PropsLinear RateLemmas RateForms.
Import ListNotations.
Local Open Scope R_scope.

(** With at most 54 points and 16382 constraints gradient descent always returns Ok, whether or
    not the constraints can be satisfied.  (C70_refuted: with 90 points it can fail.) *)
Theorem C78_never_fails : forall s (h : heap xR), valid h s -> finite_data h s -> all_con_finite h s -> linear_sketch h s ->
  (length (points s) <= 54)%nat -> INR (length (s_cons s)) <= 16382 ->
  forall P e, gd_min_grad P = Fin e -> 0 < e -> exists h' n, gd_run s P h = (h', Val (SOk n)).
Proof. exact small_run. Qed.
(** With any number of points: if the constraints can be satisfied, each accepted step shrinks
    the loss by a fixed factor. *)
Theorem C78_rate : forall s (h0 : heap xR), valid h0 s -> finite_data h0 s -> all_con_finite h0 s -> linear_sketch h0 s ->
  forall x hx, at_point h0 s (map Fin x) hx -> all_satisfied hx s ->
  forall n h, gd_steps s h0 n h ->
  let N := INR (length (points s)) in let K := INR (length (s_cons s)) in
  exists l0 l, get_loss h0 s = Fin l0 /\ get_loss h s = Fin l /\ l <= (1 - / (5001 * K * (N * N))) ^ n * l0.
Proof.
  intros s h0 V FD CF LS x hx Hx Sx n h Hs N K. exists (lossv s h0), (lossv s h).
  destruct (rate_steps s h0 V FD CF LS x hx Hx Sx n h Hs) as [Ho R].
  split; [apply (ok_loss s h0 CF h0 (okh_init _ _ V FD))|]. split; [apply (ok_loss s h0 CF h Ho)|exact R].
Qed.
(** A small gradient means a small loss. *)
Theorem C78_gradient_bounds_loss : forall s (h : heap xR), valid h s -> finite_data h s -> all_con_finite h s -> linear_sketch h s ->
  forall x hx, at_point h s (map Fin x) hx -> all_satisfied hx s ->
  forall h1 g l, get_gradient s h = (h1, Val (map Fin g)) -> get_loss h s = Fin l ->
  2 * l <= INR (length (points s)) * INR (length (points s)) * dotL g g.
Proof.
  intros s h V FD CF LS x hx Hx Sx h1 g l Eg El.
  exact (gap_N s h V CF LS x hx Hx Sx h h1 g l (okh_init _ _ V FD) Eg El).
Qed.
(** A budget that suffices. *)
Theorem C78_converges : forall s (h : heap xR) x hx P lo e l, valid h s -> finite_data h s -> all_con_finite h s -> linear_sketch h s ->
  at_point h s (map Fin x) hx -> all_satisfied hx s -> (length (points s) <= 54)%nat -> INR (length (s_cons s)) <= 16382 ->
  gd_min_loss P = Fin lo -> gd_min_grad P = Fin e -> 0 < e -> get_loss h s = Fin l ->
  let N := INR (length (points s)) in let K := INR (length (s_cons s)) in
  l <= lo * exp (INR (N.to_nat (gd_max P)) * / (5001 * K * (N * N))) ->
  exists h' n l', gd_run s P h = (h', Val (SOk n)) /\ get_loss h' s = Fin l' /\ (l' <= lo \/ 2 * l' <= N * N * (e * e)).
Proof. exact C78_enough. Qed.

Example ln_size : (length (points ln_sketch) <= 54)%nat /\ INR (length (s_cons ln_sketch)) <= 16382.
Proof. simpl. split; [lia|lra]. Qed.
Definition one_step : gd_params xR := mkGD 1%N (Fin 0) (Fin 1).
Lemma ln_norm h1 g : get_gradient ln_sketch ln_heap = (h1, Val g) -> flt (vnorm g) (Fin 1) = false.
Proof.
  destruct C69_example as (_ & _ & _ & _ & _ & _ & _ & h1' & E). rewrite E. intros X.
  assert (g = FinV [4; 2; -3; -1]) as -> by (unfold FinV; congruence). rewrite vnorm_R. apply lt_false.
  rewrite <- sqrt_1. apply sqrt_le_1_alt. unfold dotL. simpl. lra.
Qed.
Example C78_example : valid ln_heap ln_sketch /\ finite_data ln_heap ln_sketch /\ all_con_finite ln_heap ln_sketch /\
  linear_sketch ln_heap ln_sketch /\ at_point ln_heap ln_sketch (map Fin [0; 0; 2; 0]) ln_solved /\ all_satisfied ln_solved ln_sketch /\
  (length (points ln_sketch) <= 54)%nat /\ INR (length (s_cons ln_sketch)) <= 16382 /\
  exists h, gd_steps ln_sketch ln_heap 1 h.
Proof.
  split; [exact ln_valid|]. split; [exact ln_finite_data|]. split; [exact ln_finite|]. split; [exact ln_linear|].
  split; [exact ln_at|]. split; [exact ln_satisfied|]. destruct ln_size as [L1 L2]. split; [exact L1|]. split; [exact L2|].
  destruct (C78_never_fails _ _ ln_valid ln_finite_data ln_finite ln_linear L1 L2 one_step 1 eq_refl Rlt_0_1) as (h' & n & E).
  apply gd_run_spec in E as (m & hn & Hm & Hs & -> & g & Hg & C).
  change (N.to_nat (gd_max one_step)) with 1%nat in *. cbn [gd_min_loss gd_min_grad one_step] in C.
  destruct m as [|[|m]]; [|exists hn; exact Hs|lia].
  exfalso. inversion Hs. subst hn. destruct C as [C|[C|C]]; [|destruct C69_example as (_ & _ & _ & _ & _ & _ & E & _); rewrite E in C; apply lt_true in C; clear -C; lra|discriminate C].
  rewrite (ln_norm _ _ Hg) in C. discriminate C.
Qed.
(** the budget: two points, three constraints, initial loss 6, tolerance 1e-6, 1440288 passes *)
Example C78_budget_example : get_loss ln_heap ln_sketch = Fin 6 /\
  let N := INR (length (points ln_sketch)) in let K := INR (length (s_cons ln_sketch)) in
  forall passes, 1440288 <= INR passes -> 6 <= / 1000000 * exp (INR passes * / (5001 * K * (N * N))).
Proof.
  split; [apply C69_example|]. cbv zeta. intros n Hn. replace (INR (length (points ln_sketch))) with 2 by (simpl; lra).
  replace (INR (length (s_cons ln_sketch))) with 3 by (simpl; lra).
  assert (E : 2 <= exp 1) by (pose proof (exp_ineq1_le 1); lra).
  assert (K : forall n, 2 ^ n <= exp (INR n)).
  { induction n0 as [|m IH]; [simpl; rewrite exp_0; lra|]. rewrite S_INR, Rplus_comm, exp_plus. simpl.
    apply Rmult_le_compat; auto; [lra|apply pow_le; lra]. }
  specialize (K 24%nat). replace (INR 24) with 24 in K by (simpl; lra).
  assert (exp 24 <= exp (INR n * / (5001 * 3 * (2 * 2)))).
  { assert (D : 24 <= INR n * / (5001 * 3 * (2 * 2))) by lra. destruct D as [D|D]; [left; now apply exp_increasing|right; now f_equal]. }
  simpl in K. lra.
Qed.

Print Assumptions C78_never_fails.
Print Assumptions C78_rate.
Print Assumptions C78_gradient_bounds_loss.
Print Assumptions C78_converges.
