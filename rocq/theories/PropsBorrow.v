(** * C64: borrow errors (any arithmetic) *)
From Coq Require Import List ZArith NArith Arith Bool Lia Reals Lra.
From Verif Require Import Arith Vec Prim Cons Sketch Solve Api Spec ExactSpec CellSpec ArithR SpecLemmas
  Borrow BorrowSpec BorrowLemmas BorrowWrites PropsBook.
Import ListNotations.
Local Close Scope R_scope.

(** A line both of whose ends are the same point, constrained to be parallel to itself; a
    second point outside of the sketch. *)
Definition self_heap : heap xR :=
  mkHeap [Point2_new (q 0) (q 0); Point2_new (q 3) (q 0)] [mkLine 0 0] [] [] [ParallelLines 0 0].
Definition self_sketch : sketch := mkSketch [(0%N, PPoint 0); (1%N, PLine 0)] 2%N [0].
Example self_run : run no_pinv init [AddPoint2 (q 0) (q 0); AddLine 0 0; NewPoint (q 3) (q 0); Constrain (ParallelLines 0 0)]
  [RetLoc 0; RetLoc 0; RetLoc 1; RetLoc 0] (self_heap, self_sketch).
Proof. go. Qed.
Example self_valid : valid self_heap self_sketch.
Proof. exact (reachable_valid no_pinv _ _ _ self_run eq_refl). Qed.

(** ** Whatever methods are called on whatever sketch, in whatever order, no borrow is refused. *)
Theorem C64_no_borrow_panic : forall {F} {A : Arith F} (h : heap F) s l, borrows_ok [] (calls_guards h s l).
Proof. intros. exact (C64_ok_lemma h s l). Qed.
(** During get_gradient the line is held exclusively and its point is written twice; holding the
    point's guard while the other end is borrowed would be refused. *)
Example C64_no_borrow_panic_example :
  In (Guard true (ICon 0) (update_guards self_heap (getK self_heap 0))) (calls_guards self_heap self_sketch [CGetGradient]) /\
  In (wr (PLine 0) [wr (PPoint 0) []; wr (PPoint 0) []]) (update_guards self_heap (getK self_heap 0)) /\
  ~ borrows_ok [] [wr (PLine 0) [wr (PPoint 0) [wr (PPoint 0) []]]].
Proof.
  split; [cbn; tauto|]. split; [cbn; tauto|]. intros H. specialize (H _ (or_introl eq_refl)).
  inversion H as [? ? ? _ N1]; subst. specialize (N1 _ (or_introl eq_refl)). inversion N1 as [? ? ? _ N2]; subst.
  specialize (N2 _ (or_introl eq_refl)). inversion N2 as [? ? ? B _]; subst. destruct (B true (or_introl eq_refl)). discriminate.
Qed.
Print Assumptions C64_no_borrow_panic.

(** ** Callers that only hold shared guards may call everything that only reads. *)
Theorem C64_shared_guards_coexist : forall {F} {A : Arith F} (h : heap F) s held l,
  (forall y c, In (y, c) held -> y = false) -> forallb read_only l = true -> borrows_ok held (calls_guards h s l).
Proof. intros F A h s. exact (C64_readers_lemma h s). Qed.
Example C64_shared_guards_coexist_example :
  (forall y c, In (y, c) [(false, IPrim (PPoint 0)); (false, IPrim (PLine 0)); (false, ICon 0)] -> y = false) /\
  forallb read_only [CGetData; CGetLosses; CSerialize; CDecompose [SegmentEnds (PLine 0); ComparePoints 0 0]] = true /\
  length (calls_guards self_heap self_sketch [CGetData; CGetLosses; CSerialize; CDecompose [SegmentEnds (PLine 0); ComparePoints 0 0]]) = 11.
Proof. repeat split. intros y c [H|[H|[H|[]]]]; now injection H as <- _. Qed.
Print Assumptions C64_shared_guards_coexist.

(** ** Guards of either kind on cells that no registered primitive or constraint involves do no harm. *)
Theorem C64_guards_elsewhere : forall {F} {A : Arith F} (h : heap F) s held l, valid h s ->
  (forall y c, In (y, c) held -> ~ reads h s c) -> forallb method l = true -> borrows_ok held (calls_guards h s l).
Proof. intros F A h s held l V. exact (C64_elsewhere_lemma h s V held l). Qed.
Example C64_guards_elsewhere_example : valid self_heap self_sketch /\
  (forall y c, In (y, c) [(true, IPrim (PPoint 1))] -> ~ reads self_heap self_sketch c) /\
  forallb method [CSetData; CGetGradient; CGetJacobian] = true.
Proof.
  split; [exact self_valid|]. split; [|reflexivity]. intros y c [H|[]]. injection H as _ <-. intros [H|(k & [<-|[]] & H)].
  - apply (valid_reg _ _ _ self_valid) in H. cbn in H. destruct H as [H|[H|[]]]; discriminate.
  - cbn in H. repeat (destruct H as [H|H]; [discriminate|]). exact H.
Qed.
Print Assumptions C64_guards_elsewhere.

(** ** A caller that keeps a guard on a registered cell blocks the sketch. *)
Theorem C64_own_cells_block : forall {F} {A : Arith F} (h : heap F) s held y c, valid h s -> In (y, c) held ->
  match c with IPrim c => registered s c | ICon k => In k (s_cons s) end ->
  ~ borrows_ok held (calls_guards h s [CGetGradient]) /\
  (forall p, c = IPrim p -> ~ borrows_ok held (calls_guards h s [CSetData]) /\
     (y = true -> ~ borrows_ok held (calls_guards h s [CGetData]))) /\
  (y = true -> (exists k, c = ICon k) -> ~ borrows_ok held (calls_guards h s [CGetLosses])).
Proof. intros F A h s held y c V. exact (C64_blocked_lemma h s V held y c). Qed.
Example C64_own_cells_block_example : valid self_heap self_sketch /\ registered self_sketch (PPoint 0) /\
  In 0 (s_cons self_sketch) /\ In (false, IPrim (PPoint 0)) [(true, ICon 0); (false, IPrim (PPoint 0))].
Proof. split; [exact self_valid|]. split; [exists 0%N; reflexivity|]. cbn; auto. Qed.
Print Assumptions C64_own_cells_block.

(** ** The guards fit the effects: what a call changes it holds exclusively. *)
Theorem C64_changes_are_guarded : forall {F} {A : Arith F} (h : heap F) s c,
  (view (fst (get_gradient s h)) c <> view h c -> writes (call_guards h s CGetGradient) (IPrim c)) /\
  (view (fst (get_jacobian s h)) c <> view h c -> writes (call_guards h s CGetJacobian) (IPrim c)) /\
  (forall v, view (fst (set_data s v h)) c <> view h c -> writes (call_guards h s CSetData) (IPrim c)) /\
  (forall eps k ce, view (fst (check_gradients s eps k ce h)) c <> view h c ->
     writes (call_guards h s (CCheckGradients k (fun x => length (prim_data h x)))) (IPrim c)) /\
  (forall pinv sol, view (fst (solve pinv sol s h)) c <> view h c ->
     writes (calls_guards h s [CGetGradient; CGetJacobian; CSetData]) (IPrim c)).
Proof.
  intros F A h s c. split; [apply gradient_written|]. split; [apply jacobian_written|]. split; [intros v; apply set_written|].
  split; [intros; eapply check_written; eauto | intros; eapply solve_written; eauto].
Qed.
Example C64_changes_are_guarded_example :
  view (fst (set_data self_sketch [q 5; q 6] self_heap)) (PPoint 0) <> view self_heap (PPoint 0) /\
  ~ writes (call_guards self_heap self_sketch CSetData) (IPrim (PPoint 1)).
Proof.
  split.
  - cbv -[IZR]. intros [= H _]. lra.
  - intros (g & Hg & T). cbn in Hg. repeat (destruct Hg as [<-|Hg]; [inversion T; subst; contradiction|]). exact Hg.
Qed.
Print Assumptions C64_changes_are_guarded.
