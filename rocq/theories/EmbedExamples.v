(** * Cases for C90 *)
From Coq Require Import List ZArith NArith Arith Bool Lia Sorting.Sorted Permutation Floats.SpecFloat.
From Verif Require Import Arith Vec Prim Cons Sketch Solve Api Spec SpecLemmas ArithF SymSpec EmbedSpec.
Import ListNotations.

Local Notation zf := (S754_zero false).
Local Notation z := of_Z64.
Local Notation pt x y := (mkPoint (z x) (z y) zf zf).
(** two lines from one point and an arc about it; an angle, a distance, a tied arc *)
Definition tidy_heap : heap spec_float :=
  mkHeap [pt 0 0; pt 3 1; pt (-2) 5] [mkLine 0 1; mkLine 0 2] [mkArc 0 (z 2) (z 1) (z 2) zf zf zf true] []
         [FixPoint 0 (z 1) zf; ParallelLines 0 1; EuclideanDistance 0 2 (z 3); ArcEndPointCoincident 0 1].
Definition tidy_sketch : sketch :=
  mkSketch [(0%N, PPoint 0); (1%N, PPoint 1); (2%N, PPoint 2); (3%N, PLine 0); (4%N, PLine 1); (5%N, PArc 0)] 6%N [0; 1; 2; 3].
(** the same drawing between leftovers of other drawings, with other ids and with gradients left from an earlier call *)
Definition attic_heap : heap spec_float :=
  mkHeap [pt 7 7; mkPoint (z (-2)) (z 5) (z 4) (z 4); pt 0 0; pt 9 9; pt 3 1] [mkLine 3 0; mkLine 2 1; mkLine 2 4]
         [mkArc 3 (z 8) (z 8) (z 8) zf zf zf true; mkArc 2 (z 2) (z 1) (z 2) zf (z 1) zf false] [mkCircle 3 (z 1) zf]
         [HorizontalLine 0; EuclideanDistance 2 1 (z 3); ArcEndPointCoincident 1 4; FixPoint 2 (z 1) zf; ParallelLines 2 1].
Definition attic_sketch : sketch :=
  mkSketch [(3%N, PPoint 2); (5%N, PPoint 4); (8%N, PPoint 1); (9%N, PLine 2); (12%N, PLine 1); (20%N, PArc 1)] 31%N [3; 4; 1; 2].
Definition to_attic : renaming := mkRen (fun l => nth l [2; 4; 1] 0) (fun l => nth l [2; 1] 0) (fun l => S l) (fun l => l).

(** the order of the constraints: a loss of 2^53 and two losses of about 0.78 *)
Definition sum_heap (cs : list (con spec_float)) : heap spec_float := mkHeap [pt 0 0; pt 0 0] [] [] [] cs.
Definition far : con spec_float := HorizontalDistance 0 1 (z 134217728).
Definition near : con spec_float := HorizontalDistance 0 1 (S754_finite false 5629499534213120 (-52)).
Definition sum_sketch : sketch := mkSketch [(0%N, PPoint 0); (1%N, PPoint 1)] 2%N [0; 1; 2].
Definition same : renaming := mkRen (fun l => l) (fun l => l) (fun l => l) (fun l => l).

Section Binary64.
Variable L : libm.
Local Instance binary64 : Arith spec_float := ArithF L.
Local Opaque of_Z64.
Ltac vld := constructor; simpl;
  [repeat constructor; reflexivity | repeat constructor; simpl; intuition discriminate | repeat constructor; simpl; intuition discriminate | 
   repeat split; intros l Hl; simpl in Hl; repeat first [exfalso; lia | destruct l as [|l]; [repeat constructor; simpl; lia|]]
  | intros c Hc; apply registered_sub in Hc; simpl in Hc; repeat (destruct Hc as [<-|Hc]; [simpl; lia|]); destruct Hc
  | intros k Hk; repeat (destruct Hk as [<-|Hk]; [lia|]); destruct Hk].
Lemma tidy_valid : valid tidy_heap tidy_sketch. Proof. vld. Qed.
Lemma attic_valid : valid attic_heap attic_sketch. Proof. vld. Qed.
Ltac byreg h s V := let c := fresh "c" in let d := fresh "d" in let Hc := fresh "Hc" in let Hd := fresh "Hd" in
  intros c d Hc Hd; apply (valid_reg h s _ V); try apply registered_sub in Hc; simpl in Hc;
  repeat (destruct Hc as [<-|Hc]; [simpl in Hd; repeat (destruct Hd as [<-|Hd]; [simpl; tauto|]); destruct Hd|]); destruct Hc.
Lemma tidy_closed : refs_closed tidy_heap tidy_sketch.
Proof. split; byreg tidy_heap tidy_sketch tidy_valid. Qed.
Lemma tidy_attic : same_drawing to_attic tidy_heap tidy_sketch attic_heap attic_sketch.
Proof.
  split; [|split; [reflexivity | split; [reflexivity|]]].
  - intros c d Hc Hd. apply registered_sub in Hc, Hd. simpl in Hc, Hd.
    repeat (destruct Hc as [<-|Hc]; [repeat (destruct Hd as [<-|Hd]; [simpl; congruence|]); destruct Hd|]); destruct Hc.
  - split; intros c Hc; apply registered_sub in Hc; simpl in Hc; repeat (destruct Hc as [<-|Hc]; [reflexivity|]); destruct Hc.
Qed.

Lemma sum_valid : valid (sum_heap [far; near; near]) sum_sketch /\ valid (sum_heap [near; near; far]) sum_sketch.
Proof. split; vld. Qed.
Lemma sum_closed : refs_closed (sum_heap [far; near; near]) sum_sketch.
Proof. split; byreg (sum_heap [far; near; near]) sum_sketch (proj1 sum_valid). Qed.
Lemma sum_same : same_drawing_up_to_order same (sum_heap [far; near; near]) sum_sketch (sum_heap [near; near; far]) sum_sketch.
Proof.
  split; [|split; [reflexivity | split]].
  - intros [] [] _ _; simpl; congruence.
  - cbn. apply (Permutation_app_comm [near; near] [far]).
  - split; intros c Hc; apply registered_sub in Hc; simpl in Hc; repeat (destruct Hc as [<-|Hc]; [reflexivity|]); destruct Hc.
Qed.
Local Transparent of_Z64.
Lemma sum_differs : get_loss (sum_heap [far; near; near]) sum_sketch <> get_loss (sum_heap [near; near; far]) sum_sketch.
Proof. vm_compute. discriminate. Qed.
End Binary64.
