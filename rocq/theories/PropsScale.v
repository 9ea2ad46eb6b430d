(** * C93: gradient descent does not depend on the unit of length; BFGS does *)
From Coq Require Import List ZArith NArith Bool Reals Floats.SpecFloat.
From Verif Require Import Arith Vec Prim Cons Sketch Solve ArithR ArithF ScaleSpec ScaleRel ScaleLemmas ScaleExamples.
Import ListNotations.

(** Gradient descent in exact arithmetic, on a drawing with points, lines, circles and length constraints: in a unit that
    is [l] times smaller, with the thresholds in that unit, it takes the same steps - the same result after the same number
    of iterations, or a panic in both - and leaves the same drawing in the new unit. *)
Theorem C93_gradient_descent l s P h : (0 < l)%R -> no_arcs s -> lengths_only h ->
  gd_run s (rescale_gd (Fin l) P) (rescale (Fin l) h) = (rescale (Fin l) (fst (gd_run s P h)), snd (gd_run s P h)).
Proof. exact (fun L => C93_gd_lemma l L s P h). Qed.
Print Assumptions C93_gradient_descent.
(** Parameters and gradients are lengths, the loss is an area. *)
Theorem C93_readings l s h : (0 < l)%R -> no_arcs s -> lengths_only h ->
  get_data (rescale (Fin l) h) s = map (len (Fin l)) (get_data h s) /\
  get_loss (rescale (Fin l) h) s = area (Fin l) (get_loss h s) /\
  snd (get_gradient s (rescale (Fin l) h)) = match snd (get_gradient s h) with Val g => Val (map (len (Fin l)) g) | Panic => Panic end.
Proof. exact (fun L => C93_read_lemma l L s h). Qed.
Print Assumptions C93_readings.

(** The restriction to these constraints is needed; factors are powers of two, so the new unit itself rounds nothing.
    [EuclideanDistance] compares a length with 1e-6: in a larger unit the points are not moved. *)
Theorem C93_distance_refuted L : exists k s P h, let A := ArithF L in
  (exists a b d, h_cons h = [EuclideanDistance a b d]) /\ no_arcs s /\
  snd (gd_run s P h) = Val (SOk 1) /\ snd (gd_run s (rescale_gd (two_to k) P) (rescale (two_to k) h)) = Val (SOk 0).
Proof.
  exists (-21)%Z, pair_sketch, pair_gd, pair_heap. split; [now exists 0, 1, (of_Z64 2)|].
  split; [intros c [<-|[<-|[]]]; exact I | exact (pair_lemma L)].
Qed.
Print Assumptions C93_distance_refuted.
(** The loss of [PerpendicularLines] is a number, its gradient the inverse of a length: in a smaller unit steps are too short. *)
Theorem C93_angle_refuted L : exists k s P h, let A := ArithF L in
  (exists a b, h_cons h = [PerpendicularLines a b]) /\ no_arcs s /\
  snd (gd_run s P h) = Val (SOk 5) /\ snd (gd_run s (rescale_gd (two_to k) P) (rescale (two_to k) h)) = Val (SOk 0).
Proof.
  exists 4%Z, cross_sketch, chain_gd, cross_heap. split; [now exists 0, 1|].
  split; [intros c [<-|[<-|[<-|[<-|[<-|[]]]]]]; exact I | exact (cross_lemma L)].
Qed.
Print Assumptions C93_angle_refuted.
(** BFGS compares s.y, an area, with 1e-16 and adds 1e-6 to it: in a larger unit it is as slow as gradient descent, even on
    a drawing with length constraints only, on which gradient descent takes the same number of iterations in both units. *)
Theorem C93_bfgs_refuted L : exists k s P Q h, let A := ArithF L in lengths_only h /\ no_arcs s /\
  snd (bfgs_run s P h) = Val (SOk 6%N) /\ snd (bfgs_run s (rescale_bfgs (two_to k) P) (rescale (two_to k) h)) = Val (SOk 25%N) /\
  snd (gd_run s Q h) = Val (SOk 25) /\ snd (gd_run s (rescale_gd (two_to k) Q) (rescale (two_to k) h)) = Val (SOk 25).
Proof. exists (-30)%Z, chain_sketch, chain_bfgs, chain_gd, chain_heap. exact (chain_lemma L). Qed.
Print Assumptions C93_bfgs_refuted.

Example C93_ex : no_arcs chain_sketch /\ lengths_only chainR /\ get_loss chainR chain_sketch = Fin 2 /\ get_loss (rescale (Fin 3) chainR) chain_sketch = Fin 18.
Proof. exact chainR_lemma. Qed.
