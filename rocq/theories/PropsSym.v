(** * C66, C67: what solving does not depend on *)
From Coq Require Import List ZArith NArith Arith Bool Lia Permutation Reals Lra Floats.SpecFloat.
From Verif Require Import Arith Vec Prim Cons Sketch Solve Api Spec ExactSpec SolverSpec MotionSpec SymSpec ArithR ArithF
  WfLemmas DataLemmas SpecLemmas GradLemmas BookLemmas PropsSolver MotionExamples SymLemmas SymForms SymWitness SymExamples.
Import ListNotations.
Local Open Scope R_scope.

(** ** C66: ids, addresses and the order of entry do not matter *)

(** Every solver returns the same result on two sketches that consist of the same primitives and constraints,
    and leaves them with the same data. *)
Theorem C66_same_sketch : forall pinv sol r s1 s2 h1 h2,
  valid h1 s1 -> valid h2 s2 -> refs_closed h1 s1 -> finite_data h1 s1 -> all_con_finite h1 s1 ->
  same_sketch r h1 s1 h2 s2 -> coordinate_free pinv -> finite_steps sol ->
  snd (solve pinv sol s2 h2) = snd (solve pinv sol s1 h1) /\
  same_sketch r (fst (solve pinv sol s1 h1)) s1 (fst (solve pinv sol s2 h2)) s2.
Proof. exact same_solve. Qed.

(** In particular the constraints of a list may be entered in any order. *)
Theorem C66_constraint_order : forall pinv sol h s L1 L2 rs1 rs2 h1 s1 h2 s2,
  valid h s -> refs_closed h s -> finite_data h s -> all_con_finite h s -> Permutation L1 L2 ->
  run pinv (h, s) (map Constrain L1) rs1 (h1, s1) -> run pinv (h, s) (map Constrain L2) rs2 (h2, s2) ->
  coordinate_free pinv -> finite_steps sol ->
  snd (solve pinv sol s2 h2) = snd (solve pinv sol s1 h1) /\
  forall c, registered s c -> prim_data (fst (solve pinv sol s2 h2)) c = prim_data (fst (solve pinv sol s1 h1)) c.
Proof. exact order_solve. Qed.

(** That is a property of exact arithmetic: in binary64 the order matters already for one step of
    gradient descent with three FixPoint constraints. *)
Theorem C66_binary64_refuted : forall L, let A := ArithF L in forall pinv : mat spec_float -> spec_float -> pinv_res (mat spec_float),
  let P := mkGD 1 (gd_min_loss gd_default) (gd_min_grad gd_default) in
  exists h s L1 L2 rs1 rs2 h1 s1 h2 s2,
    valid h s /\ refs_closed h s /\ finite_data h s /\ Permutation L1 L2 /\
    run pinv (h, s) (map Constrain L1) rs1 (h1, s1) /\ run pinv (h, s) (map Constrain L2) rs2 (h2, s2) /\
    finite_data (fst (solve pinv (GradientBased P) s1 h1)) s1 /\
    prim_data (fst (solve pinv (GradientBased P) s2 h2)) (PPoint 0%nat) <> prim_data (fst (solve pinv (GradientBased P) s1 h1)) (PPoint 0%nat).
Proof. exact ord_witness. Qed.

(** ** C67: solving commutes with rigid motions of the plane *)

(** If the second sketch is the first one moved by a rotation and a translation, then every solver returns the
    same result on both, and afterwards the second sketch is again the first one moved.  Horizontal and vertical
    constraints allow translations only, and BFGS allows quarter turns only. *)
Theorem C67_rigid_motion : forall pinv sol r phi tx ty s1 s2 h1 h2,
  valid h1 s1 -> valid h2 s2 -> refs_closed h1 s1 -> finite_data h1 s1 -> all_con_finite h1 s1 ->
  congruent r phi tx ty h1 s1 h2 s2 ->
  (phi = 0 \/ forall k, In k (s_cons s1) -> turns_with (getK h1 k) = true) ->
  coordinate_free pinv -> finite_steps sol -> stops_alike phi sol ->
  snd (solve pinv sol s2 h2) = snd (solve pinv sol s1 h1) /\
  congruent r phi tx ty (fst (solve pinv sol s1 h1)) s1 (fst (solve pinv sol s2 h2)) s2.
Proof. exact congruent_solve. Qed.

(** ** Examples *)

(** two points, entered in one order or the other, and a quarter turn followed by a translation by (1, 2) *)
Definition cgA_cons : list (con xR) := [EuclideanDistance 0%nat 1%nat (q 1); FixPoint 0%nat (q 0) (q 0)].
Definition cgB_cons : list (con xR) := [FixPoint 1%nat (q 0) (q 0); EuclideanDistance 1%nat 0%nat (q 1)].
Definition cgC_cons : list (con xR) := [FixPoint 1%nat (q 1) (q 2); EuclideanDistance 1%nat 0%nat (q 1)].
Definition cg_heap (x0 y0 x1 y1 : Z) (l : list (con xR)) : heap xR := mkHeap [Point2_new (q x0) (q y0); Point2_new (q x1) (q y1)] [] [] [] l.
Definition cg_sketch (l : list loc) : sketch := mkSketch [(0%N, PPoint 0%nat); (1%N, PPoint 1%nat)] 2%N l.
Definition two : list loc := [0%nat; 1%nat].
Definition swap01 (l : loc) : loc := match l with 0%nat => 1%nat | 1%nat => 0%nat | _ => l end.
Definition cg_ren : renaming := mkRen swap01 (fun l => l) (fun l => l) (fun l => l).

Lemma cg_run0 : forall x0 y0 x1 y1, run xpinv init [AddPoint2 (q x0) (q y0); AddPoint2 (q x1) (q y1)] [RetLoc 0%nat; RetLoc 1%nat] (cg_heap x0 y0 x1 y1 [], cg_sketch []).
Proof. intros. goS. Qed.
Lemma cg_run2 : forall pinv x0 y0 x1 y1 l, In l [cgA_cons; rev cgA_cons; cgB_cons; cgC_cons] ->
  run pinv (cg_heap x0 y0 x1 y1 [], cg_sketch []) (map Constrain l) [RetLoc 0%nat; RetLoc 1%nat] (cg_heap x0 y0 x1 y1 l, cg_sketch two).
Proof. intros pinv x0 y0 x1 y1 l [<-|[<-|[<-|[<-|[]]]]]; simpl map; goS. Qed.
Lemma cg_valid0 : forall x0 y0 x1 y1, valid (cg_heap x0 y0 x1 y1 []) (cg_sketch []).
Proof. intros. exact (reachable_valid xpinv _ _ _ (cg_run0 _ _ _ _) eq_refl). Qed.
Lemma cg_valid : forall x0 y0 x1 y1 l, In l [cgA_cons; rev cgA_cons; cgB_cons; cgC_cons] -> valid (cg_heap x0 y0 x1 y1 l) (cg_sketch two).
Proof.
  intros x0 y0 x1 y1 l H. refine (reachable_valid xpinv _ _ _ (run_app xpinv _ _ _ _ _ _ _ (cg_run0 _ _ _ _) (cg_run2 xpinv x0 y0 x1 y1 l H)) _).
  destruct H as [<-|[<-|[<-|[<-|[]]]]]; reflexivity.
Qed.
Lemma cg_reg : forall l c, registered (cg_sketch l) c <-> c = PPoint 0%nat \/ c = PPoint 1%nat.
Proof.
  intros l c. unfold registered. simpl. split.
  - intros [id H]. unfold get_primitive_by_id, cg_sketch in H. simpl in H.
    destruct (N.eqb_spec id 0); [left; congruence|]. destruct (N.eqb_spec id 1); [right; congruence | discriminate].
  - intros [->| ->]; [exists 0%N | exists 1%N]; reflexivity.
Qed.

Lemma cgA_closed : refs_closed (cg_heap 0 0 3 0 cgA_cons) (cg_sketch two).
Proof.
  split.
  - intros c d. rewrite !cg_reg. intros [->| ->] [].
  - intros k d. rewrite cg_reg. intros [<-|[<-|[]]]; simpl; intuition congruence.
Qed.
Lemma cgA_finite_data : finite_data (cg_heap 0 0 3 0 cgA_cons) (cg_sketch two).
Proof. apply (finite_iff _ _ (valid_keys _ _ (cg_valid 0 0 3 0 cgA_cons (or_introl eq_refl)))). reflexivity. Qed.
Lemma cgA_finite : all_con_finite (cg_heap 0 0 3 0 cgA_cons) (cg_sketch two).
Proof. con_finS. Qed.
Lemma swap_bij : (forall c d, registered (cg_sketch two) c -> registered (cg_sketch two) d -> ren cg_ren c = ren cg_ren d -> c = d) /\
  (forall c2, registered (cg_sketch two) c2 <-> exists c, registered (cg_sketch two) c /\ c2 = ren cg_ren c).
Proof.
  split.
  - intros c d. rewrite !cg_reg. intros [->| ->] [->| ->]; simpl; congruence.
  - intros c2. rewrite cg_reg. split.
    + intros [->| ->]; [exists (PPoint 1%nat) | exists (PPoint 0%nat)]; rewrite cg_reg; auto.
    + intros (c & Hc & ->). apply cg_reg in Hc as [->| ->]; simpl; auto.
Qed.

Example C66_same_sketch_example :
  valid (cg_heap 0 0 3 0 cgA_cons) (cg_sketch two) /\ valid (cg_heap 3 0 0 0 cgB_cons) (cg_sketch two) /\
  refs_closed (cg_heap 0 0 3 0 cgA_cons) (cg_sketch two) /\ finite_data (cg_heap 0 0 3 0 cgA_cons) (cg_sketch two) /\
  all_con_finite (cg_heap 0 0 3 0 cgA_cons) (cg_sketch two) /\
  same_sketch cg_ren (cg_heap 0 0 3 0 cgA_cons) (cg_sketch two) (cg_heap 3 0 0 0 cgB_cons) (cg_sketch two) /\ coordinate_free flat_pinv.
Proof.
  split; [apply cg_valid; simpl; auto|]. split; [apply cg_valid; simpl; auto|]. split; [exact cgA_closed|].
  split; [exact cgA_finite_data|]. split; [exact cgA_finite|]. split; [|exact flat_coordinate_free].
  destruct swap_bij as [B1 B2]. split; [exact B1|]. split; [exact B2|]. split; [apply perm_swap|].
  split; intros c Hc; apply cg_reg in Hc as [->| ->]; reflexivity.
Qed.
Example C66_constraint_order_example : let h := cg_heap 0 0 3 0 [] in let s := cg_sketch [] in
  valid h s /\ refs_closed h s /\ finite_data h s /\ all_con_finite h s /\ Permutation cgA_cons (rev cgA_cons) /\
  run flat_pinv (h, s) (map Constrain cgA_cons) [RetLoc 0%nat; RetLoc 1%nat] (cg_heap 0 0 3 0 cgA_cons, cg_sketch two) /\
  run flat_pinv (h, s) (map Constrain (rev cgA_cons)) [RetLoc 0%nat; RetLoc 1%nat] (cg_heap 0 0 3 0 (rev cgA_cons), cg_sketch two) /\
  coordinate_free flat_pinv.
Proof.
  split; [apply cg_valid0|]. split; [split; [|intros k d []]; intros c d; rewrite !cg_reg; intros [->| ->] [] |].
  split; [apply (finite_iff _ _ (valid_keys _ _ (cg_valid0 0 0 3 0))); reflexivity|]. split; [intros k []|].
  split; [apply perm_swap|]. split; [apply cg_run2; simpl; auto|]. split; [apply cg_run2; simpl; auto|]. exact flat_coordinate_free.
Qed.
(** a quarter turn, so BFGS is included; the result is not a renaming alone *)
Example C67_example :
  valid (cg_heap 0 0 3 0 cgA_cons) (cg_sketch two) /\ valid (cg_heap 1 5 1 2 cgC_cons) (cg_sketch two) /\
  refs_closed (cg_heap 0 0 3 0 cgA_cons) (cg_sketch two) /\ finite_data (cg_heap 0 0 3 0 cgA_cons) (cg_sketch two) /\
  all_con_finite (cg_heap 0 0 3 0 cgA_cons) (cg_sketch two) /\
  congruent cg_ren (PI / 2) 1 2 (cg_heap 0 0 3 0 cgA_cons) (cg_sketch two) (cg_heap 1 5 1 2 cgC_cons) (cg_sketch two) /\
  (forall k, In k (s_cons (cg_sketch two)) -> turns_with (getK (cg_heap 0 0 3 0 cgA_cons) k) = true) /\
  (forall sol, stops_alike (PI / 2) sol) /\ coordinate_free flat_pinv.
Proof.
  split; [apply cg_valid; simpl; auto|]. split; [apply cg_valid; simpl; auto|]. split; [exact cgA_closed|].
  split; [exact cgA_finite_data|]. split; [exact cgA_finite|]. split; [|split; [|split; [|exact flat_coordinate_free]]].
  - destruct swap_bij as [B1 B2]. split; [exact B1|]. split; [exact B2|]. split; [|split].
    + simpl. unfold move_x, move_y. rewrite cos_PI2, sin_PI2. simpl. unfold getK. simpl. unfold q, cgC_cons.
      replace (0 * 0 - 0 * 1 + 1) with 1 by ring. replace (0 * 1 + 0 * 0 + 2) with 2 by ring. apply perm_swap.
    + intros c Hc; apply cg_reg in Hc as [->| ->]; reflexivity.
    + intros c d Hc. apply cg_reg in Hc as [->| ->]; unfold prim_data; simpl; intros E;
        (destruct d as [|x [|y [|z d]]]; try discriminate); injection E as <- <-; unfold move_x, move_y;
        rewrite cos_PI2, sin_PI2; unfold q; apply (f_equal2 (fun a b => [Fin a; Fin b])); ring.
  - intros k [<-|[<-|[]]]; reflexivity.
  - intros []; simpl; auto. right. apply cos_PI2.
Qed.

Print Assumptions C66_same_sketch.
Print Assumptions C66_constraint_order.
Print Assumptions C66_binary64_refuted.
Print Assumptions C67_rigid_motion.
