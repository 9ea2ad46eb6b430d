(** * Counterexamples for C04, C06, C11 *)
From Coq Require Import List ZArith NArith Arith Bool Lia Sorted Reals Lra.
From Verif Require Import Arith Vec Prim Cons Sketch Solve Api Spec ArithR
  HeapLemmas SolveLemmas BookLemmas WfLemmas DataLemmas SpecLemmas.
Import ListNotations.

Definition bw_pinv : mat xR -> xR -> pinv_res (mat xR) := fun _ _ => PErr.
Definition z (n : Z) : xR := Fin (IZR n).
Ltac ok := simpl; repeat split; repeat constructor; simpl; try lia.
Ltac go := repeat (first [apply run_nil | eapply run_cons; [ok | reflexivity |]]).

Lemma C04_witness : exists os rs st st',
  run bw_pinv init os rs st /\ refs_closed (fst st) (snd st) /\
  step bw_pinv st (DeletePrimitive 0) = (st', RetOk) /\ ~ refs_closed (fst st') (snd st').
Proof.
  set (os := [AddPoint2 (z 0) (z 0); AddPoint2 (z 3) (z 4); AddLine 0 1] : list (op xR)).
  assert (R : exists rs st, run bw_pinv init os rs st /\
    st = (mkHeap [Point2_new (z 0) (z 0); Point2_new (z 3) (z 4)] [mkLine 0 1] [] [] [],
          mkSketch [(0%N, PPoint 0); (1%N, PPoint 1); (2%N, PLine 0)] 3%N [])).
  { exists [RetLoc 0; RetLoc 1; RetLoc 0]. eexists; split; [unfold os; go | reflexivity]. }
  destruct R as (rs & st & R & E). exists os, rs, st. eexists. split; [exact R|]. split; [|split].
  - eapply (C03_closed bw_pinv); eauto; [reflexivity|]. unfold os; simpl. intros o H. intuition (subst; auto).
  - rewrite E. reflexivity.
  - intros [C _]. simpl in C. specialize (C (PLine 0) (PPoint 0)).
    destruct C as [id C]; simpl.
    + exists 2%N. reflexivity.
    + auto.
    + apply bt_get_In in C. simpl in C. destruct C as [C|[C|[]]]; discriminate.
Qed.

Lemma C06_witness :
  (exists os rs st k, run bw_pinv init os rs st /\ In k (s_cons (snd st)) /\
     snd (delete_constraint (snd st) k) = ROk tt /\
     s_cons (fst (delete_constraint (snd st) k)) = [k]) /\
  (exists os rs st k, run bw_pinv init os rs st /\ In k (s_cons (snd st)) /\
     delete_constraint (snd st) k = (snd st, RErr ConstraintNotFound)).
Proof.
  split.
  - exists [AddPoint2 (z 0) (z 0); AddPoint2 (z 3) (z 4); AddLine 0 1;
            Constrain (HorizontalLine 0); Constrain (VerticalLine 0)].
    exists [RetLoc 0; RetLoc 1; RetLoc 0; RetLoc 0; RetLoc 1]. eexists. exists 1.
    split; [go|]. repeat split. simpl; auto.
  - exists [AddPoint2 (z 0) (z 0); AddPoint2 (z 3) (z 4); AddLine 0 1; Constrain (HorizontalLine 0)].
    exists [RetLoc 0; RetLoc 1; RetLoc 0; RetLoc 0]. eexists. exists 0.
    split; [go|]. repeat split. simpl; auto.
Qed.

Lemma C11_witness : exists (h : heap xR) s v h',
  valid h s /\ set_data (sketch_clone s) v h = (h', Val tt) /\ get_data h' s <> get_data h s.
Proof.
  set (os := [AddPoint2 (z 0) (z 0)] : list (op xR)).
  assert (R : run bw_pinv init os [RetLoc 0] (mkHeap [Point2_new (z 0) (z 0)] [] [] [] [],
          mkSketch [(0%N, PPoint 0)] 1%N [])) by (unfold os; go).
  apply (reachable_valid bw_pinv) in R; [|reflexivity].
  eexists _, _, [z 1; z 2]. eexists. split; [exact R|]. split; [reflexivity|].
  simpl. intros H. injection H. intros. lra.
Qed.
