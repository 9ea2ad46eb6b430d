(** * C71 - C74: the benchmark sketches and the example tests *)
From Coq Require Import List ZArith NArith Arith Bool Lia Reals Lra Floats.SpecFloat.
From Verif Require Import Arith Vec Prim Cons Sketch Solve Api Spec SolverSpec ArithR ArithF ExactSpec LinearSpec Bench BenchSpec
  HeapLemmas SpecLemmas ExactLemmas BuildLemmas BenchLemmas CircleLemmas RectLemmas TightLemmas.
Import ListNotations.
Local Open Scope R_scope.

(** ** C71: the staircase benchmark *)
(** It builds, in any arithmetic, the sketch it is meant to build; every call succeeds. *)
Theorem C71_build : forall F (A : Arith F) pinv n, (1 <= n)%nat -> few (n + n) -> ffin (f0 : F) = true -> ffin (lit_08 : F) = true ->
  run pinv init (stairs_ops n) (stairs_rets n) (stairs_heap n, stairs_sketch n) /\
  get_num_primitives (stairs_sketch n) = (2 * n - 1)%nat /\ get_num_constraints (stairs_sketch n) = (2 * n - 1)%nat.
Proof. intros F A pinv n Hn Hf H0 H8. split; [now apply stairs_run | now apply stairs_counts]. Qed.
(** Solving keeps that structure, whatever the solver and its outcome. *)
Theorem C71_kept : forall pinv sol n (h : heap xR), same_structure (stairs_heap n) h ->
  same_structure (stairs_heap n) (fst (solve pinv sol (stairs_sketch n) h)).
Proof. exact stairs_kept. Qed.
(** The loss is zero exactly when every point is at its corner of the staircase. *)
Theorem C71_zero : forall n, (1 <= n)%nat -> few (8 * n) -> forall h : heap xR, same_structure (stairs_heap n) h -> finite_data h (stairs_sketch n) ->
  (get_loss h (stairs_sketch n) = Fin 0 <-> forall i, (i < n)%nat -> point_at h i (stair_x i) (stair_y i)).
Proof. exact stairs_zero. Qed.
(** The error of a point is bounded by the loss, and so is the verdict of the benchmark. *)
Theorem C71_error : forall n, (1 <= n)%nat -> few (8 * n) -> forall h : heap xR, same_structure (stairs_heap n) h -> finite_data h (stairs_sketch n) ->
  forall l i, get_loss h (stairs_sketch n) = Fin l -> (i < n)%nat ->
  sq (cx (cfg_of h) i - stair_x i) + sq (cy (cfg_of h) i - stair_y i) <= 2 * INR (S i) * l.
Proof. exact stairs_error. Qed.
Theorem C71_check : forall n, (1 <= n)%nat -> few (8 * n) -> forall h : heap xR, same_structure (stairs_heap n) h -> finite_data h (stairs_sketch n) ->
  forall l e, get_loss h (stairs_sketch n) = Fin l -> 0 <= e -> 2 * INR (n - 1) * l <= e * e -> stairs_check n h (Fin e) = true.
Proof. exact stairs_check_loss. Qed.
(** The converse fails: the last point is not looked at. *)
Theorem C71_check_refuted : forall n B, (2 <= n)%nat -> few (8 * n) -> 0 <= B -> exists (h : heap xR) l,
  same_structure (stairs_heap n) h /\ finite_data h (stairs_sketch n) /\
  (forall e, 0 <= e -> stairs_check n h (Fin e) = true) /\ get_loss h (stairs_sketch n) = Fin l /\ B < l.
Proof. exact stairs_blind. Qed.
(** Gradient descent that stops before its budget is spent passes the check up to 51 points, and from 52 on it need not. *)
Theorem C71_gradient_descent : forall n (h h' : heap xR) k, (1 <= n <= 51)%nat -> same_structure (stairs_heap n) h -> finite_data h (stairs_sketch n) ->
  gd_run (stairs_sketch n) gd_default h = (h', Val (SOk k)) -> (N.of_nat k < 10000)%N -> stairs_check n h' (flit 1 6) = true.
Proof. exact stairs_gd_lemma. Qed.
Theorem C71_gradient_descent_refuted : forall n, (52 <= n)%nat -> few (8 * n) -> exists h h' : heap xR,
  same_structure (stairs_heap n) h /\ finite_data h (stairs_sketch n) /\
  gd_run (stairs_sketch n) gd_default h = (h', Val (SOk 0%nat)) /\ stairs_check n h' (flit 1 6) = false.
Proof. exact stairs_gd52_lemma. Qed.
(** The same for BFGS, where the limit is 13 points. *)
Theorem C71_bfgs : forall n (h h' : heap xR) k, (1 <= n <= 13)%nat -> same_structure (stairs_heap n) h -> finite_data h (stairs_sketch n) ->
  bfgs_run (stairs_sketch n) bfgs_default h = (h', Val (SOk k)) -> (k < 1000)%N -> stairs_check n h' (flit 1 6) = true.
Proof. exact stairs_bfgs13_lemma. Qed.
Theorem C71_bfgs_refuted : forall n, (14 <= n)%nat -> few (8 * n) -> exists h h' : heap xR,
  same_structure (stairs_heap n) h /\ finite_data h (stairs_sketch n) /\
  bfgs_run (stairs_sketch n) bfgs_default h = (h', Val (SOk 0%N)) /\ stairs_check n h' (flit 1 6) = false.
Proof. exact stairs_bfgs14_lemma. Qed.
(** the hypotheses are met, and not only at the solution *)
Example C71_example : (1 <= 5 <= 13)%nat /\ few (8 * 5) /\ few (8 * 60) /\ exists h : heap xR, same_structure (stairs_heap 5) h /\ finite_data h (stairs_sketch 5) /\
  exists l, get_loss h (stairs_sketch 5) = Fin l /\ 0 < l /\ stairs_check 5 h (Fin 1) = false.
Proof.
  split; [lia|]. split; [unfold few; lia|]. split; [unfold few; lia|].
  assert (Hf : few (8 * 5)) by (unfold few; lia). assert (Hn : (1 <= 5)%nat) by lia.
  destruct (stairs_place 5 (fun i => stair_x i + 2) stair_y Hn Hf) as (h & S & FD & P). exists h. do 2 (split; [auto|]).
  eexists. split; [exact (stairs_loss 5 Hn Hf h S FD)|]. split.
  - assert (E : chain (ex h) (5 - 1) = 4).
    { cbn [Nat.sub chain]. unfold ex, sq. destruct (P 0%nat ltac:(lia)) as [-> _], (P 1%nat ltac:(lia)) as [-> _], (P 2%nat ltac:(lia)) as [-> _], (P 3%nat ltac:(lia)) as [-> _], (P 4%nat ltac:(lia)) as [-> _].
      replace (stair_x 0) with 0 by (unfold stair_x; simpl; ring). ring. }
    rewrite E. pose proof (chain_pos (ey h) (5 - 1)). lra.
  - apply not_true_iff_false. rewrite (stairs_check_R 5 Hn Hf h S FD). intros H. destruct (H 0%nat) as [H1 _]; [lia|]. unfold ex in H1.
    rewrite (proj1 (P 0%nat ltac:(lia))) in H1. replace (stair_x 0 + 2 - stair_x 0) with 2 in H1 by ring. rewrite Rabs_pos_eq in H1; lra.
Qed.
(** in binary64, with any mathematical library, the benchmark of three points runs to a successful check *)
Example C71_binary64 : forall L (pinv : mat spec_float -> spec_float -> pinv_res (mat spec_float)), let A := ArithF L in exists h' : heap spec_float,
  run pinv init (stairs_ops 3 ++ [Api.Solve (BFGS bfgs_default)]) (stairs_rets 3 ++ [RetSolve (SOk tt)]) (h', stairs_sketch 3) /\
  stairs_check 3 h' (flit 1 6) = true.
Proof.
  intros L pinv A. exists (fst (solve pinv (BFGS bfgs_default) (stairs_sketch 3) (stairs_heap 3))). split.
  - apply solve_last; [apply stairs_run; [lia | unfold few; lia | reflexivity | reflexivity] | vm_compute; reflexivity].
  - vm_compute. reflexivity.
Qed.

(** ** C72: the circle benchmark *)
Theorem C72_build : forall F (A : Arith F) pinv n, (1 <= n)%nat -> few (n + n) ->
  (forall i, (i < n)%nat -> ffin (true_x i : F) = true /\ ffin (true_y i : F) = true) ->
  (forall i, (S i < n)%nat -> ffin (circle_distance i : F) = true /\ ffin (circle_angle n i : F) = true) ->
  run pinv init (circle_ops n) (circle_rets n) (circle_heap n, circle_sketch n).
Proof. exact @circle_run. Qed.
(** Over the reals the reference values are finite. *)
Theorem C72_build_exact : forall n, (1 <= n)%nat -> few (10 * n) -> forall pinv : mat xR -> xR -> pinv_res (mat xR),
  run pinv init (circle_ops n) (circle_rets n) (circle_heap n, circle_sketch n).
Proof. exact circle_built. Qed.
(** The loss is zero exactly at the reference positions, which thus meet the distances and angles computed from them. *)
Theorem C72_zero : forall n, (1 <= n)%nat -> few (10 * n) -> forall h : heap xR, same_structure (circle_heap n) h -> finite_data h (circle_sketch n) ->
  (get_loss h (circle_sketch n) = Fin 0 <-> forall i, (i < n)%nat -> point_at h i (stair_x i) (stair_y i)).
Proof. exact circle_zero. Qed.
(** The check passes whenever the loss is small, independently of the number of points. *)
Theorem C72_error : forall n, (1 <= n)%nat -> few (10 * n) -> forall h : heap xR, same_structure (circle_heap n) h -> finite_data h (circle_sketch n) ->
  forall l i, get_loss h (circle_sketch n) = Fin l -> (i < n)%nat ->
  sq (cx (cfg_of h) i - stair_x i) + sq (cy (cfg_of h) i - stair_y i) <= 2 * l.
Proof. exact circle_error. Qed.
Theorem C72_check : forall n, (1 <= n)%nat -> few (10 * n) -> forall h : heap xR, same_structure (circle_heap n) h -> finite_data h (circle_sketch n) ->
  forall l e, get_loss h (circle_sketch n) = Fin l -> 0 <= e -> 2 * l <= e * e -> circle_check n h (Fin e) = true.
Proof. exact circle_check_loss. Qed.
Theorem C72_tolerance : forall n (h : heap xR), (1 <= n)%nat -> few (10 * n) -> same_structure (circle_heap n) h -> finite_data h (circle_sketch n) ->
  flt (get_loss h (circle_sketch n)) (flit 1 14) = true -> circle_check n h (flit 1 6) = true.
Proof. exact circle_gd_lemma. Qed.
Example C72_example : (1 <= 4)%nat /\ few (10 * 4) /\ same_structure (circle_heap 4 : heap xR) (circle_heap 4) /\
  finite_data (circle_heap 4 : heap xR) (circle_sketch 4) /\ get_loss (circle_heap 4 : heap xR) (circle_sketch 4) <> Fin 0.
Proof.
  assert (S : same_structure (circle_heap 4 : heap xR) (circle_heap 4)) by (repeat split; reflexivity).
  assert (Hf : few (10 * 4)) by (unfold few; lia). assert (Hn : (1 <= 4)%nat) by lia.
  assert (FD : finite_data (circle_heap 4 : heap xR) (circle_sketch 4)).
  { intros c Hc. apply (valid_reg _ _ _ (circle_valid 4 Hn Hf _ S)) in Hc. cbn in Hc.
    repeat (destruct Hc as [<-|Hc]; [apply Forall_forall; intros x Hx; cbn in Hx; unfold fnat, Reqb in Hx;
      repeat (destruct (Req_EM_T _ _) in Hx; [exfalso; simpl in *; lra|]); repeat (destruct Hx as [<-|Hx]; [reflexivity|]); destruct Hx|]). destruct Hc. }
  split; [auto|]. split; [auto|]. split; [auto|]. split; [auto|]. intros E. pose proof (proj1 (C72_zero 4 Hn Hf _ S FD) E) as E1. clear E. rename E1 into E.
  specialize (E 1%nat ltac:(lia)). unfold point_at, pdata, p_data in E. apply (f_equal (fun p => vx (fst p))) in E. cbn [fst] in E. revert E.
  cbn [circle_heap getP h_pts seq map nth p_x vx]. rewrite f0_R. cbn [vx]. unfold stair_x. change (INR ((1 + 1) / 2)) with 1. lra.
Qed.

(** ** C73: the axis-aligned rectangle *)
Theorem C73_build : forall F (A : Arith F) pinv, ffin (f0 : F) = true -> ffin (f2 : F) = true -> ffin (flit 3 0 : F) = true ->
  run pinv init aligned_ops aligned_rets (aligned_heap, aligned_sketch).
Proof. exact @aligned_run. Qed.
Theorem C73_zero : forall h : heap xR, same_structure aligned_heap h -> finite_data h aligned_sketch ->
  (get_loss h aligned_sketch = Fin 0 <-> point_at h 0%nat 0 0 /\ point_at h 1%nat 2 0 /\ point_at h 2%nat 2 3 /\ point_at h 3%nat 0 3).
Proof. exact aligned_zero. Qed.
Theorem C73_error : forall h : heap xR, same_structure aligned_heap h -> finite_data h aligned_sketch -> forall l, get_loss h aligned_sketch = Fin l ->
  let X := cx (cfg_of h) in let Y := cy (cfg_of h) in
  sq (X 0%nat) + sq (Y 0%nat) <= 2 * l /\ sq (X 1%nat - 2) + sq (Y 1%nat) <= 4 * l /\
  sq (X 2%nat - 2) + sq (Y 2%nat - 3) <= 6 * l /\ sq (X 3%nat) + sq (Y 3%nat - 3) <= 4 * l.
Proof. exact aligned_error. Qed.
Theorem C73_asserts : forall h : heap xR, same_structure aligned_heap h -> finite_data h aligned_sketch -> forall l,
  get_loss h aligned_sketch = Fin l -> 6 * l < / 10 ^ 16 -> aligned_asserts h = true.
Proof. exact aligned_asserts_loss. Qed.
(** A successful BFGS does not imply the assertions: its tolerance on the loss is too coarse for them. *)
Theorem C73_refuted : exists h : heap xR, same_structure aligned_heap h /\ finite_data h aligned_sketch /\
  bfgs_run aligned_sketch bfgs_default h = (h, Val (SOk 0%N)) /\ aligned_asserts h = false.
Proof. exact aligned_off_lemma. Qed.
(** The test itself passes: in binary64 arithmetic, whatever the mathematical library and the pseudo-inverse. *)
Theorem C73_binary64 : forall L (pinv : mat spec_float -> spec_float -> pinv_res (mat spec_float)), let A := ArithF L in exists h' : heap spec_float,
  run pinv init (aligned_ops ++ [Api.Solve (BFGS bfgs_default)]) (aligned_rets ++ [RetSolve (SOk tt)]) (h', aligned_sketch) /\
  aligned_asserts h' = true.
Proof.
  intros L pinv A. exists (fst (solve pinv (BFGS bfgs_default) aligned_sketch aligned_heap)). split.
  - apply solve_last; [apply aligned_run; reflexivity | vm_compute; reflexivity].
  - vm_compute. reflexivity.
Qed.
Example C73_example : let h := aligned_off (1 / 2) in same_structure aligned_heap h /\ finite_data h aligned_sketch /\
  get_loss h aligned_sketch = Fin (1 / 8) /\ let h0 := aligned_off 0 in get_loss h0 aligned_sketch = Fin 0.
Proof.
  intros h. destruct (aligned_off_ok (1 / 2)) as [S FD]. destruct (aligned_off_ok 0) as [S0 FD0]. do 2 (split; [auto|]).
  cbv zeta. unfold h. rewrite (aligned_loss _ S FD), (aligned_loss _ S0 FD0). cbn [cfg_of cx cy aligned_off getP h_pts nth p_x p_y vx]. unfold sq. split; f_equal; field.
Qed.

(** ** C74: the rotated rectangle *)
Theorem C74_build : forall F (A : Arith F) pinv, ffin (f0 : F) = true -> ffin (f1 : F) = true -> ffin (f2 : F) = true -> ffin (flit 3 0 : F) = true ->
  ffin (to_radians (flit 45 0) : F) = true -> run pinv init rotated_ops rotated_rets (rotated_heap, rotated_sketch).
Proof. exact @rotated_run. Qed.
(** All constraints hold exactly in eight placements: four rectangles, and four figures in which the side cd has collapsed to a point. *)
Theorem C74_zero : forall h : heap xR, same_structure rotated_heap h -> finite_data h rotated_sketch ->
  (get_loss h rotated_sketch = Fin 0 <-> exists sg t, plus_or_minus sg /\ plus_or_minus t /\ rotated_base h sg /\
     (rotated_rectangle h sg t \/ rotated_triangle h sg t)).
Proof. exact rotated_zero. Qed.
(** The check accepts the rectangles, at any tolerance. *)
Theorem C74_accepts : forall (h : heap xR) e, same_structure rotated_heap h -> finite_data h rotated_sketch -> get_loss h rotated_sketch = Fin 0 ->
  pdata h 2%nat <> pdata h 3%nat -> 0 < e -> rotated_check h (Fin e) = true.
Proof. exact rotated_accepts. Qed.
(** A solved sketch may be rejected all the same: no constraint of the example keeps c and d apart. *)
Theorem C74_refuted : exists h : heap xR, same_structure rotated_heap h /\ finite_data h rotated_sketch /\ get_loss h rotated_sketch = Fin 0 /\
  forall e, 0 < e <= 1 / 2 -> rotated_check h (Fin e) = false.
Proof. exact rotated_bad. Qed.
Example C74_example : exists h : heap xR, same_structure rotated_heap h /\ finite_data h rotated_sketch /\ get_loss h rotated_sketch = Fin 0 /\
  pdata h 2%nat <> pdata h 3%nat.
Proof. exact rotated_good. Qed.

Print Assumptions C71_build.
Print Assumptions C71_kept.
Print Assumptions C71_zero.
Print Assumptions C71_error.
Print Assumptions C71_check.
Print Assumptions C71_check_refuted.
Print Assumptions C71_gradient_descent.
Print Assumptions C71_gradient_descent_refuted.
Print Assumptions C71_bfgs.
Print Assumptions C71_bfgs_refuted.
Print Assumptions C72_build.
Print Assumptions C72_build_exact.
Print Assumptions C72_zero.
Print Assumptions C72_error.
Print Assumptions C72_check.
Print Assumptions C72_tolerance.
Print Assumptions C73_build.
Print Assumptions C73_zero.
Print Assumptions C73_error.
Print Assumptions C73_asserts.
Print Assumptions C73_refuted.
Print Assumptions C73_binary64.
Print Assumptions C74_build.
Print Assumptions C74_zero.
Print Assumptions C74_accepts.
Print Assumptions C74_refuted.
