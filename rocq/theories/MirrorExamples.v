(** * Cases for the mirror theorems *)
From Coq Require Import List ZArith NArith Bool Floats.SpecFloat.
From Verif Require Import Arith Vec Prim Cons Sketch Solve ArithF MirrorSpec MirrorRel MirrorLemmas.
Import ListNotations.

(** a library with an odd sine and an even cosine *)
Definition flat_libm : libm := mkLibm (fun x => x) (fun _ => of_Z64 1) (fun x => of_Z64 2) (fun _ _ => of_Z64 0).
Lemma flat_symmetric : symmetric_libm flat_libm.
Proof. intros s x y H. split; [exact H|]. split; [now left|]. intros _. now left. Qed.
Definition unit_pinv (m : mat spec_float) (_ : spec_float) : pinv_res (mat spec_float) := PInv m.
Lemma unit_symmetric : symmetric_pinv unit_pinv. Proof. intros ss m m' eps H. exact H. Qed.

(** two lines from one point, parallel to be, one end fixed, two distances *)
Definition zf := S754_zero false.
Definition zp (x y : Z) : point spec_float := mkPoint (of_Z64 x) (of_Z64 y) zf zf.
Definition vane_heap : heap spec_float :=
  mkHeap [zp 0 0; zp 3 1; zp (-2) 5] [mkLine 0 1; mkLine 0 2] [mkArc 0 (of_Z64 2) (of_Z64 1) (of_Z64 2) zf zf zf true] []
         [FixPoint 0 (of_Z64 1) zf; HorizontalDistance 0 1 (of_Z64 4); ParallelLines 0 1; EuclideanDistance 0 2 (of_Z64 3)].
Definition vane_sketch : sketch := mkSketch [(0%N, PPoint 0); (1%N, PPoint 1); (2%N, PPoint 2); (3%N, PLine 0); (4%N, PLine 1); (5%N, PArc 0)] 6%N [0; 1; 2; 3].
Lemma vane_free : no_arc_ties vane_heap. Proof. intros c [<-|[<-|[<-|[<-|[]]]]]; exact I. Qed.
Lemma vane_mirrored : mirrored signed true false vane_heap (mirror true false vane_heap).
Proof. apply mirror_mirrored. right. exact vane_free. Qed.
Definition vane_gd := mkGD 3 (lit64 1 14) (lit64 1 10).
Definition vane_end : heap spec_float := Eval vm_compute in fst (@gd_run _ (ArithF flat_libm) vane_sketch vane_gd vane_heap).
Lemma vane_run : @gd_run _ (ArithF flat_libm) vane_sketch vane_gd vane_heap = (vane_end, Val (SOk 3)).
Proof. vm_compute. reflexivity. Qed.
Lemma vane_moves : p_x (nth 2 (h_pts vane_end) (zp 0 0)) <> p_x (nth 2 (h_pts vane_heap) (zp 0 0)) /\ p_x (nth 2 (h_pts vane_end) (zp 0 0)) <> zf.
Proof. split; vm_compute; discriminate. Qed.

(** exchanging the axes: two points to be moved to the origin *)
Definition long_heap : heap spec_float :=
  mkHeap [zp 120659339 126767367; zp 101902186 56359315] [] [] [] [FixPoint 0 zf zf; FixPoint 1 zf zf].
Definition long_sketch : sketch := mkSketch [(0%N, PPoint 0); (1%N, PPoint 1)] 2%N [0; 1].
Definition long_gd := mkGD 1 (lit64 1 14) (S754_finite false 7053543012847512 (-25)).
Lemma C89_swap_lemma L : let A := ArithF L in
  snd (gd_run long_sketch long_gd long_heap) = Val (SOk 1) /\ snd (gd_run long_sketch long_gd (swap long_heap)) = Val (SOk 0).
Proof. split; vm_compute; reflexivity. Qed.
