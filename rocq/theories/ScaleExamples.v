(** * Cases for the change of unit *)
From Coq Require Import List ZArith NArith Bool Reals Lra Floats.SpecFloat.
From Verif Require Import Arith Vec Prim Cons Sketch Solve ArithR ArithF ScaleSpec MirrorExamples.
Import ListNotations.

(** a power of two: multiplying by it rounds nothing here *)
Definition two_to (e : Z) : spec_float := S754_finite false 4503599627370496 (e - 52).

(** two points one apart that are to be two apart *)
Definition pair_sketch : sketch := mkSketch [(0%N, PPoint 0); (1%N, PPoint 1)] 2%N [0].
Definition pair_heap : heap spec_float := mkHeap [zp 0 0; zp 1 0] [] [] [] [EuclideanDistance 0 1 (of_Z64 2)].
Definition pair_gd := mkGD 10 (two_to (-4)) (two_to (-4)).
Lemma pair_lemma L : let A := ArithF L in
  snd (gd_run pair_sketch pair_gd pair_heap) = Val (SOk 1) /\
  snd (gd_run pair_sketch (rescale_gd (two_to (-21)) pair_gd) (rescale (two_to (-21)) pair_heap)) = Val (SOk 0).
Proof. split; vm_compute; reflexivity. Qed.
(** two lines from one point that are to be perpendicular *)
Definition cross_sketch : sketch := mkSketch [(0%N, PPoint 0); (1%N, PPoint 1); (2%N, PPoint 2); (3%N, PLine 0); (4%N, PLine 1)] 5%N [0].
Definition cross_heap : heap spec_float := mkHeap [zp 0 0; zp 1 0; zp 1 2] [mkLine 0 1; mkLine 0 2] [] [] [PerpendicularLines 0 1].
Definition chain_gd := mkGD 50 (two_to (-10)) (two_to (-10)).
Lemma cross_lemma L : let A := ArithF L in
  snd (gd_run cross_sketch chain_gd cross_heap) = Val (SOk 5) /\
  snd (gd_run cross_sketch (rescale_gd (two_to 4) chain_gd) (rescale (two_to 4) cross_heap)) = Val (SOk 0).
Proof. split; vm_compute; reflexivity. Qed.
(** three points in a row, the first one to be moved *)
Definition chain_cons {F} (of : Z -> F) : list (con F) := [HorizontalDistance 0 1 (of 2%Z); HorizontalDistance 1 2 (of 3%Z); FixPoint 0 (of 1%Z) (of 1%Z)].
Definition chain_sketch : sketch := mkSketch [(0%N, PPoint 0); (1%N, PPoint 1); (2%N, PPoint 2)] 3%N [0; 1; 2].
Definition chain_heap : heap spec_float := mkHeap [zp 0 0; zp 1 0; zp 5 0] [] [] [] (chain_cons of_Z64).
Definition chain_bfgs := mkBFGS 50 (two_to (-10)) (two_to (-10)).
Lemma chain_lemma L : let A := ArithF L in lengths_only chain_heap /\ no_arcs chain_sketch /\
  snd (bfgs_run chain_sketch chain_bfgs chain_heap) = Val (SOk 6%N) /\
  snd (bfgs_run chain_sketch (rescale_bfgs (two_to (-30)) chain_bfgs) (rescale (two_to (-30)) chain_heap)) = Val (SOk 25%N) /\
  snd (gd_run chain_sketch chain_gd chain_heap) = Val (SOk 25) /\
  snd (gd_run chain_sketch (rescale_gd (two_to (-30)) chain_gd) (rescale (two_to (-30)) chain_heap)) = Val (SOk 25).
Proof.
  split; [intros c [<-|[<-|[<-|[]]]]; exact I|]. split; [intros c [<-|[<-|[<-|[]]]]; exact I|].
  split; [vm_compute; reflexivity|]. split; [vm_compute; reflexivity|]. split; vm_compute; reflexivity.
Qed.
(** the same in exact arithmetic *)
Definition rp (x y : R) : point xR := mkPoint (Fin x) (Fin y) (Fin 0) (Fin 0).
Definition chainR : heap xR := mkHeap [rp 0 0; rp 1 0; rp 5 0] [] [] [] (chain_cons (fun z => Fin (IZR z))).
Lemma chainR_lemma : no_arcs chain_sketch /\ lengths_only chainR /\ get_loss chainR chain_sketch = Fin 2 /\ get_loss (rescale (Fin 3) chainR) chain_sketch = Fin 18.
Proof.
  split; [intros c [<-|[<-|[<-|[]]]]; exact I|]. split; [intros c [<-|[<-|[<-|[]]]]; exact I|].
  split; unfold get_loss; cbn -[Rplus Rmult Rminus Rdiv IZR]; f_equal; lra.
Qed.
