(** * C12 - C20: losses and gradients *)
From Coq Require Import List ZArith NArith Arith Bool Lia Sorted Reals Lra Floats.SpecFloat.
From Verif Require Import Arith Vec Prim Cons Sketch Solve Api Spec ArithR ArithF ExactSpec
  HeapLemmas SolveLemmas BookLemmas WfLemmas DataLemmas SpecLemmas BookWitness PropsBook
  ExactLemmas DerivLemmas GradLemmas PureLemmas SignLemmas LossLemmas.
Import ListNotations.

Ltac plain_ops := let o := fresh in let H := fresh in intros o H; simpl in H; repeat (destruct H as [<- | H]; [split; reflexivity|]); destruct H.
Ltac go2 := repeat (first [apply run_nil | eapply run_cons; [ok | cbv -[IZR]; reflexivity |]]).
(** ** A concrete sketch: three points, two lines, five constraints *)
Definition ex2_ops : list (op xR) :=
  [AddPoint2 (q 0) (q 0); AddPoint2 (q 3) (q 4); AddPoint2 (q 5) (q 1); AddLine 0 1; AddLine 1 2;
   Constrain (EuclideanDistance 0 1 (q 2)); Constrain (AngleBetweenPoints 0 2 1 (q 1));
   Constrain (EqualLength 0 1); Constrain (ParallelLines 0 1); Constrain (HorizontalLine 1);
   AddArc 0 (q 2) false (q 0) (q 1); Constrain (ArcEndPointCoincident 0 1)].
Definition ex2_rets : list (ret xR) :=
  [RetLoc 0; RetLoc 1; RetLoc 2; RetLoc 0; RetLoc 1; RetLoc 0; RetLoc 1; RetLoc 2; RetLoc 3; RetLoc 4; RetLoc 0; RetLoc 5].
Definition ex2_heap : heap xR :=
  mkHeap [Point2_new (q 0) (q 0); Point2_new (q 3) (q 4); Point2_new (q 5) (q 1)] [mkLine 0 1; mkLine 1 2]
         [Arc_new 0 (q 2) false (q 0) (q 1)] []
         [EuclideanDistance 0 1 (q 2); AngleBetweenPoints 0 2 1 (q 1); EqualLength 0 1; ParallelLines 0 1;
          HorizontalLine 1; ArcEndPointCoincident 0 1].
Definition ex2_sketch : sketch :=
  mkSketch [(0%N, PPoint 0); (1%N, PPoint 1); (2%N, PPoint 2); (3%N, PLine 0); (4%N, PLine 1); (5%N, PArc 0)] 6%N
           [0; 1; 2; 3; 4; 5]%nat.
Example ex2_run : run no_pinv init ex2_ops ex2_rets (ex2_heap, ex2_sketch).
Proof. unfold ex2_ops, ex2_rets. go2. Qed.
Example ex2_valid : valid ex2_heap ex2_sketch.
Proof. exact (reachable_valid no_pinv _ _ _ ex2_run eq_refl). Qed.
Ltac con_fin := let k := fresh in let H := fresh in let d := fresh in
  intros k H; simpl in H;
  repeat (destruct H as [<- | H]; [split; [reflexivity | intros d; simpl; intros Hd; repeat (destruct Hd as [<- | Hd]; [reflexivity|]); destruct Hd] |]);
  destruct H.
Example ex2_finite : all_con_finite ex2_heap ex2_sketch.
Proof. con_fin. Qed.
Local Open Scope R_scope.
Lemma len_big x y : 1 <= x * x + y * y -> tiny < len (x, y).
Proof.
  intros H. apply Rlt_le_trans with 1; [unfold tiny; lra|]. unfold len; simpl. rewrite <- sqrt_1. now apply sqrt_le_1_alt.
Qed.
Example ex2_nondegenerate : forall k, In k (s_cons ex2_sketch) -> nondegenerate (cfg_of ex2_heap) ex2_heap (getK ex2_heap k).
Proof.
  intros k H. simpl in H. repeat (destruct H as [<- | H]); try destruct H; cbn; unfold dirR, from_to, crossR; cbn; auto.
  - apply Rlt_le, len_big. lra.
  - repeat split; [apply len_big; lra | apply len_big; lra | lra].
  - split; intros E; injection E; lra.
  - split; intros E; injection E; lra.
Qed.

(** ** C12 *)

(** Exact arithmetic, any data: the loss is never below zero. *)
Theorem C12_exact : forall (h : heap xR) (c : con xR) (s : sketch),
  flt (loss_value h c) f0 = false /\ flt (get_loss h s) f0 = false.
Proof. exact (fun h c s => conj (loss_nn_R h c) (get_loss_nn_R h s)). Qed.

(** IEEE binary64, any data, any sin/cos/acos/atan2: the same. *)
Theorem C12_binary64 : forall (L : libm) (h : heap spec_float) (c : con spec_float) (s : sketch),
  let A := ArithF L in
  SFltb (loss_value h c) (S754_zero false) = false /\ SFltb (get_loss h s) (S754_zero false) = false.
Proof. exact (fun L h c s => conj (loss_nn_64 L h c) (get_loss_nn_64 L h s)). Qed.

Example C12_example : get_loss ex_heap ex_sketch = Fin 8.
Proof. unfold get_loss; cbn. f_equal. lra. Qed.

(** ** C13 *)

(** The value of every loss: half the squared residual of [ExactSpec.residual2]. *)
Theorem C13_loss_is_half_squared_residual : forall (h : heap xR) (c : con xR),
  con_finite h c -> loss_value h c = Fin (residual2 (cfg_of h) h c / 2).
Proof. exact C13_formula_lemma. Qed.

Theorem C13_zero_iff_satisfied : forall (h : heap xR) (c : con xR),
  con_finite h c -> (loss_value h c = Fin 0 <-> satisfied (cfg_of h) h c).
Proof. exact C13_zero_lemma. Qed.

Example C13_example :
  con_finite ex_heap (HorizontalLine 0%nat) /\ ~ satisfied (cfg_of ex_heap) ex_heap (HorizontalLine 0%nat) /\
  satisfied (cfg_of ex_heap) ex_heap (EuclideanDistance 0%nat 1%nat (q 5)).
Proof.
  split; [|split].
  - split; [reflexivity|]. intros d; simpl. intros [<-|[<-|[<-|[]]]]; reflexivity.
  - cbn. lra.
  - cbn. unfold len, from_to; cbn. replace (_ + _) with (5 * 5) by lra. apply sqrt_square. lra.
Qed.

(** ** C14 *)
Theorem C14_loss_is_sum : forall (F : Type) (A : Arith F) (h : heap F) (s : sketch),
  get_loss h s = fold_left fadd (get_loss_per_constraint h s) f0 /\
  length (get_loss_per_constraint h s) = get_num_constraints s /\
  forall i k, nth_error (s_cons s) i = Some k ->
    nth_error (get_loss_per_constraint h s) i = Some (loss_value h (getK h k)).
Proof. exact (fun F A h s => conj (get_loss_sum h s) (conj (map_length _ _) (loss_entry h s))). Qed.

Theorem C14_zero_iff_all_satisfied : forall (h : heap xR) (s : sketch),
  all_con_finite h s ->
  (get_loss h s = Fin 0 <-> forall k, In k (s_cons s) -> satisfied (cfg_of h) h (getK h k)).
Proof. exact C14_zero_lemma. Qed.

Theorem C14_positive_entries_are_conflicts : forall (h : heap xR) (s : sketch) i k,
  all_con_finite h s -> nth_error (s_cons s) i = Some k ->
  exists r, nth_error (get_loss_per_constraint h s) i = Some (Fin r) /\ 0 <= r /\
    (0 < r <-> ~ satisfied (cfg_of h) h (getK h k)).
Proof. exact C14_conflict_lemma. Qed.

Example C14_example : all_con_finite ex2_heap ex2_sketch /\ nth_error (s_cons ex2_sketch) 4%nat = Some 4%nat /\
  nth_error (get_loss_per_constraint ex2_heap ex2_sketch) 4%nat = Some (Fin (9 / 2)).
Proof. split; [exact ex2_finite|]. split; [reflexivity|]. cbn. do 2 f_equal. lra. Qed.

(** ** C15 *)

(** The gradient is the derivative of the loss along every direction.  [moved h s d t] is the
    sketch after [set_data (x + t d)]; that call succeeds and the loss there is a number. *)
Theorem C15_gradient_is_derivative : forall (h : heap xR) (s : sketch),
  valid h s -> all_con_finite h s ->
  (forall k, In k (s_cons s) -> nondegenerate (cfg_of h) h (getK h k)) ->
  exists h' g, get_gradient s h = (h', Val (map Fin g)) /\ length g = get_n_dofs h s /\
    forall d, length d = get_n_dofs h s ->
      (forall t, snd (set_data s (map Fin (map2 (fun x y => x + t * y) (map vx (get_data h s)) d)) h) = Val tt) /\
      (forall t, ffin (get_loss (moved h s d t) s) = true) /\
      derivable_pt_lim (fun t => vx (get_loss (moved h s d t) s)) 0 (dotL g d).
Proof. exact C15_lemma. Qed.

Example C15_example : valid ex2_heap ex2_sketch /\ all_con_finite ex2_heap ex2_sketch /\
  (forall k, In k (s_cons ex2_sketch) -> nondegenerate (cfg_of ex2_heap) ex2_heap (getK ex2_heap k)) /\
  get_n_dofs ex2_heap ex2_sketch = 9%nat.
Proof. exact (conj ex2_valid (conj ex2_finite (conj ex2_nondegenerate eq_refl))). Qed.

(** ** C16 *)
Theorem C16_jacobian_rows : forall (h : heap xR) (s : sketch),
  valid h s -> all_con_finite h s ->
  (forall k, In k (s_cons s) -> nondegenerate (cfg_of h) h (getK h k)) ->
  exists h' J, get_jacobian s h = (h', Val (map (map Fin) J)) /\ length J = get_num_constraints s /\
    forall i row, nth_error J i = Some row -> length row = get_n_dofs h s /\
      forall d, length d = get_n_dofs h s ->
        derivable_pt_lim (fun t => vx (nth i (get_loss_per_constraint (moved h s d t) s) f0)) 0 (dotL row d).
Proof. exact C16_lemma. Qed.

(** The columns add up to the gradient, also in degenerate configurations (unless an
    equal-length constraint has a line of length zero, where both panic, C18). *)
Theorem C16_columns_sum_to_gradient : forall (h : heap xR) (s : sketch),
  valid h s -> all_con_finite h s ->
  (forall k, In k (s_cons s) -> ~ zero_length (cfg_of h) h (getK h k)) ->
  exists h1 g h2 J, get_gradient s h = (h1, Val (map Fin g)) /\ get_jacobian s h = (h2, Val (map (map Fin) J)) /\
    length g = get_n_dofs h s /\ length J = get_num_constraints s /\ (forall row, In row J -> length row = get_n_dofs h s) /\
    forall j, (j < get_n_dofs h s)%nat -> nth j g 0 = sumR (map (fun row => nth j row 0) J).
Proof. exact C16_sum_lemma. Qed.

Example C16_example : forall k, In k (s_cons ex2_sketch) -> ~ zero_length (cfg_of ex2_heap) ex2_heap (getK ex2_heap k).
Proof.
  intros k Hk. rewrite <- eqlen_zero_length. apply nondeg_eqlen. now apply ex2_nondegenerate.
Qed.

(** ** C17 *)

(** The result depends on data and structure only, not on stored gradients; in any arithmetic. *)
Theorem C17_depends_on_data_only : forall (F : Type) (A : Arith F) (h1 h2 : heap F) (s : sketch),
  valid h1 s -> same_structure h1 h2 -> (forall c, prim_data h2 c = prim_data h1 c) ->
  snd (get_gradient s h1) = snd (get_gradient s h2) /\ snd (get_jacobian s h1) = snd (get_jacobian s h2).
Proof. exact (@C17_gradient_lemma). Qed.

Theorem C17_twice : forall (F : Type) (A : Arith F) (h : heap F) (s : sketch), valid h s ->
  snd (get_gradient s (fst (get_gradient s h))) = snd (get_gradient s h) /\
  snd (get_jacobian s (fst (get_jacobian s h))) = snd (get_jacobian s h).
Proof. exact (@C17_twice_lemma). Qed.

(** They change nothing but cached gradients, even when they panic. *)
Theorem C17_no_effect_on_data : forall (F : Type) (A : Arith F) (h : heap F) (s : sketch),
  let h1 := fst (get_gradient s h) in let h2 := fst (get_jacobian s h) in
  same_structure h h1 /\ (forall c, prim_data h1 c = prim_data h c) /\
  same_structure h h2 /\ (forall c, prim_data h2 c = prim_data h c).
Proof. exact (@C17_effect_lemma). Qed.

(** stale gradients do not matter: the same sketch with a gradient left in point 1 *)
Definition stale_heap : heap xR := setP ex_heap 1%nat (mkPoint (q 3) (q 4) (q 7) (q 7)).
Example C17_example : same_structure ex_heap stale_heap /\ (forall c, prim_data stale_heap c = prim_data ex_heap c) /\
  stale_heap <> ex_heap.
Proof.
  split; [|split].
  - repeat split; auto.
  - intros [[|[|l]]|l|l|l]; reflexivity.
  - intros E. apply (f_equal (fun h => p_gx (getP h 1%nat))) in E. cbn in E. injection E. lra.
Qed.

(** ** C18 *)

(** On finite data gradient evaluation panics exactly when an equal-length constraint refers
    to a line of length zero. *)
Theorem C18_partial : forall (h : heap xR) (s : sketch),
  valid h s -> all_con_finite h s ->
  (snd (get_gradient s h) = Panic <-> exists k, In k (s_cons s) /\ zero_length (cfg_of h) h (getK h k)) /\
  (snd (get_jacobian s h) = Panic <-> exists k, In k (s_cons s) /\ zero_length (cfg_of h) h (getK h k)).
Proof. exact C18_lemma. Qed.

(** Such sketches can be built: two coincident points, two lines, an equal-length constraint. *)
Definition ex18_ops : list (op xR) :=
  ([AddPoint2 (q 1) (q 1); AddPoint2 (q 1) (q 1); AddPoint2 (q 2) (q 2); AddLine 0 1; AddLine 1 2; Constrain (EqualLength 0 1)])%nat.
Definition ex19_rets : list (ret xR) := ([RetLoc 0; RetLoc 1; RetLoc 2; RetLoc 0; RetLoc 1; RetLoc 0])%nat.
Definition ex18_heap : heap xR :=
  (mkHeap [Point2_new (q 1) (q 1); Point2_new (q 1) (q 1); Point2_new (q 2) (q 2)] [mkLine 0 1; mkLine 1 2] [] [] [EqualLength 0 1])%nat.
Definition ex18_sketch : sketch :=
  (mkSketch [(0%N, PPoint 0); (1%N, PPoint 1); (2%N, PPoint 2); (3%N, PLine 0); (4%N, PLine 1)] 5%N [0%nat])%nat.
Example ex18_run : run no_pinv init ex18_ops ex19_rets (ex18_heap, ex18_sketch).
Proof. unfold ex18_ops, ex19_rets. go2. Qed.
Example ex18_valid : valid ex18_heap ex18_sketch.
Proof. exact (reachable_valid no_pinv _ _ _ ex18_run eq_refl). Qed.
Example ex18_finite : all_con_finite ex18_heap ex18_sketch.
Proof. con_fin. Qed.

Theorem C18_refuted : exists (os : list (op xR)) rs h s,
  run no_pinv init os rs (h, s) /\ finite_data h s /\ all_con_finite h s /\ refs_closed h s /\
  snd (get_gradient s h) = Panic.
Proof.
  exists ex18_ops, ex19_rets, ex18_heap, ex18_sketch.
  split; [exact ex18_run|]. split; [|split; [exact ex18_finite|split]].
  - apply (finite_iff _ _ (valid_keys _ _ ex18_valid)). reflexivity.
  - apply (C03_closed no_pinv _ _ _ ex18_run eq_refl). plain_ops.
  - apply (C18_partial _ _ ex18_valid ex18_finite). exists 0%nat. split; [now left|].
    exists 0%nat, 1%nat. split; [reflexivity|]. left. unfold dirR, from_to; cbn. f_equal; lra.
Qed.

(** ** C19 *)

(** A single constraint: the gradient vanishes exactly if the constraint is satisfied or the
    configuration is one of the stuck ones of [ExactSpec.stuck]. *)
Theorem C19_partial : forall (h : heap xR) (s : sketch) k,
  valid h s -> refs_closed h s -> all_con_finite h s -> s_cons s = [k] ->
  ~ zero_length (cfg_of h) h (getK h k) ->
  exists h' g, get_gradient s h = (h', Val (map Fin g)) /\
    ((forall x, In x g -> x = 0) <-> satisfied (cfg_of h) h (getK h k) \/ stuck (cfg_of h) h (getK h k)).
Proof. exact C19_lemma. Qed.

(** Two lines that should be parallel but are perpendicular: satisfiable, loss 1/2, gradient 0. *)
Definition ex19_ops : list (op xR) :=
  ([AddPoint2 (q 0) (q 0); AddPoint2 (q 1) (q 0); AddPoint2 (q 0) (q 1); AddLine 0 1; AddLine 0 2; Constrain (ParallelLines 0 1)])%nat.
Definition ex19_heap : heap xR :=
  (mkHeap [Point2_new (q 0) (q 0); Point2_new (q 1) (q 0); Point2_new (q 0) (q 1)] [mkLine 0 1; mkLine 0 2] [] [] [ParallelLines 0 1])%nat.
Definition ex19_sketch : sketch :=
  (mkSketch [(0%N, PPoint 0); (1%N, PPoint 1); (2%N, PPoint 2); (3%N, PLine 0); (4%N, PLine 1)] 5%N [0%nat])%nat.
Example ex19_run : run no_pinv init ex19_ops ex19_rets (ex19_heap, ex19_sketch).
Proof. unfold ex19_ops, ex19_rets. go2. Qed.
Example ex19_valid : valid ex19_heap ex19_sketch.
Proof. exact (reachable_valid no_pinv _ _ _ ex19_run eq_refl). Qed.
Example ex19_finite : all_con_finite ex19_heap ex19_sketch.
Proof. con_fin. Qed.
Example ex19_closed : refs_closed ex19_heap ex19_sketch.
Proof. apply (C03_closed no_pinv _ _ _ ex19_run eq_refl). plain_ops. Qed.
Example ex19_nonzero : ~ zero_length (cfg_of ex19_heap) ex19_heap (getK ex19_heap 0%nat).
Proof. intros (l1 & l2 & E & _). discriminate. Qed.

Theorem C19_refuted : exists (os : list (op xR)) rs h s k,
  run no_pinv init os rs (h, s) /\ s_cons s = [k] /\ all_con_finite h s /\
  ~ satisfied (cfg_of h) h (getK h k) /\
  (exists h' g, get_gradient s h = (h', Val (map Fin g)) /\ forall x, In x g -> x = 0) /\
  (exists v h', set_data s v h = (h', Val tt) /\ satisfied (cfg_of h') h' (getK h' k)).
Proof.
  exists ex19_ops, ex19_rets, ex19_heap, ex19_sketch, 0%nat.
  split; [exact ex19_run|]. split; [reflexivity|]. split; [exact ex19_finite|]. split; [|split].
  - unfold getK; cbn. unfold crossR, dirR, from_to; cbn. lra.
  - destruct (C19_partial _ _ _ ex19_valid ex19_closed ex19_finite eq_refl ex19_nonzero) as (h' & g & E & Z).
    exists h', g. split; [exact E|]. apply Z. right. unfold getK; cbn. unfold dotR, dirR, from_to; cbn. lra.
  - exists [q 0; q 0; q 1; q 0; q 2; q 0]. eexists. split; [reflexivity|].
    unfold getK; cbn. unfold crossR, dirR, from_to; cbn. lra.
Qed.

Example C19_example : exists s k, valid ex19_heap s /\ s_cons s = [k] /\ refs_closed ex19_heap s.
Proof. exists ex19_sketch, 0%nat. exact (conj ex19_valid (conj eq_refl ex19_closed)). Qed.

(** ** C20 *)
Theorem C20_rotation : forall phi tx ty (h h' : heap xR) (c : con xR),
  rigid phi tx ty (fun d => In d (deps h c)) h h' -> con_finite h c -> rotation_invariant c = true ->
  loss_value h' c = loss_value h c.
Proof. exact C20_rotation_lemma. Qed.

Theorem C20_translation : forall tx ty (h h' : heap xR) (c : con xR),
  rigid 0 tx ty (fun d => In d (deps h c)) h h' -> con_finite h c -> translation_invariant c = true ->
  loss_value h' c = loss_value h c.
Proof. exact C20_translation_lemma. Qed.

(** A whole sketch: moving every registered primitive rigidly keeps the total loss. *)
Theorem C20_sketch : forall phi tx ty (h h' : heap xR) (s : sketch),
  refs_closed h s -> all_con_finite h s ->
  (forall k, In k (s_cons s) ->
     rotation_invariant (getK h k) = true \/ phi = 0 /\ translation_invariant (getK h k) = true) ->
  rigid phi tx ty (registered s) h h' -> get_loss h' s = get_loss h s.
Proof. exact C20_sketch_lemma. Qed.

(** the example heap turned by a quarter and moved by (1, 2) *)
Example C20_example : exists h', rigid (PI/2) 1 2 (registered ex2_sketch) ex2_heap h' /\ p_y (getP h' 1%nat) <> p_y (getP ex2_heap 1%nat) /\
  (forall d, In d (deps ex2_heap (EuclideanDistance 0%nat 1%nat (q 2))) -> registered ex2_sketch d).
Proof.
  exists (mkHeap [Point2_new (Fin 1) (Fin 2); Point2_new (Fin (-3)) (Fin 5); Point2_new (Fin 0) (Fin 7)] [mkLine 0%nat 1%nat; mkLine 1%nat 2%nat]
         [Arc_new 0%nat (q 2) false (Fin (0 + PI/2)) (Fin (1 + PI/2))] [] (h_cons ex2_heap)).
  split; [|split].
  - unfold rigid. rewrite cos_PI2, sin_PI2. split; [|split].
    + repeat split; auto; destruct l as [|[|l]]; reflexivity.
    + intros m x y Hi E. apply (valid_reg _ _ _ ex2_valid) in Hi. simpl in Hi.
      repeat (destruct Hi as [Hi|Hi]; [try discriminate; injection Hi as <-|]); try contradiction;
        cbn in E |- *; injection E as <- <-; repeat f_equal; lra.
    + intros m r sa ea Hi E. apply (valid_reg _ _ _ ex2_valid) in Hi. simpl in Hi.
      repeat (destruct Hi as [Hi|Hi]; [try discriminate; injection Hi as <-|]); try contradiction;
        cbn in E |- *; injection E as <- <- <-; reflexivity.
  - cbn. intros E. injection E. lra.
  - simpl. intros d [<-|[<-|[]]]; [exists 0%N | exists 1%N]; simpl; auto.
Qed.

Print Assumptions C12_exact.
Print Assumptions C12_binary64.
Print Assumptions C13_loss_is_half_squared_residual.
Print Assumptions C13_zero_iff_satisfied.
Print Assumptions C14_loss_is_sum.
Print Assumptions C14_zero_iff_all_satisfied.
Print Assumptions C14_positive_entries_are_conflicts.
Print Assumptions C15_gradient_is_derivative.
Print Assumptions C16_jacobian_rows.
Print Assumptions C16_columns_sum_to_gradient.
Print Assumptions C17_depends_on_data_only.
Print Assumptions C17_twice.
Print Assumptions C17_no_effect_on_data.
Print Assumptions C18_partial.
Print Assumptions C18_refuted.
Print Assumptions C19_partial.
Print Assumptions C19_refuted.
Print Assumptions C20_rotation.
Print Assumptions C20_translation.
Print Assumptions C20_sketch.
