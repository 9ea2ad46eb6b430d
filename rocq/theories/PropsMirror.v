(** * C89: a mirrored sketch is solved as the mirror image, bit for bit *)
From Coq Require Import List ZArith NArith Bool Floats.SpecFloat.
From Verif Require Import Arith Vec Prim Cons Sketch Solve ArithF MirrorSpec MirrorRel MirrorLemmas MirrorExamples.
Import ListNotations.

(** Gradient descent and BFGS in binary64: on two heaps that are mirror images of each other (up to signs of zeros) a run
    returns the same result after the same number of iterations - or panics on both - and leaves mirror images. *)
Theorem C89_gradient_descent L sx sy s P h h' : let A := ArithF L in symmetric_libm L ->
  mirrored signed sx sy h h' ->
  snd (gd_run s P h) = snd (gd_run s P h') /\ mirrored signed sx sy (fst (gd_run s P h)) (fst (gd_run s P h')).
Proof. intros A HL. exact (C89_gd_lemma L HL sx sy s P h h'). Qed.
Print Assumptions C89_gradient_descent.
Theorem C89_bfgs L sx sy s P h h' : let A := ArithF L in symmetric_libm L ->
  mirrored signed sx sy h h' ->
  snd (bfgs_run s P h) = snd (bfgs_run s P h') /\ mirrored signed sx sy (fst (bfgs_run s P h)) (fst (bfgs_run s P h')).
Proof. intros A HL. exact (C89_bfgs_lemma L HL sx sy s P h h'). Qed.
Print Assumptions C89_bfgs.

(** Every solver, if the pseudo-inverse used by Gauss-Newton and Levenberg-Marquardt commutes with the mirroring. *)
Theorem C89_solve L pinv sx sy s sol h h' : let A := ArithF L in symmetric_libm L -> symmetric_pinv pinv ->
  mirrored signed sx sy h h' ->
  snd (solve pinv sol s h) = snd (solve pinv sol s h') /\ mirrored signed sx sy (fst (solve pinv sol s h)) (fst (solve pinv sol s h')).
Proof. intros A HL. exact (C89_nls_lemma L HL pinv sx sy s sol h h'). Qed.
Print Assumptions C89_solve.

(** The readings of the two sketches: the same loss, and mirrored parameters and gradients. *)
Theorem C89_readings L sx sy s h h' : let A := ArithF L in symmetric_libm L ->
  mirrored signed sx sy h h' ->
  same_number (get_loss h s) (get_loss h' s) /\ mir_vec signed (signs sx sy s) (get_data h s) (get_data h' s) /\
  match snd (get_gradient s h), snd (get_gradient s h') with
  | Val g, Val g' => mir_vec signed (signs sx sy s) g g' | Panic, Panic => True | _, _ => False
  end.
Proof. intros A HL. exact (C89_read_lemma L HL sx sy s h h'). Qed.
Print Assumptions C89_readings.

(** Every drawing without points tied to arcs has a mirror image in both axes; with arcs, in the x axis. *)
Theorem C89_mirror sx sy h : sx = false \/ no_arc_ties h -> mirrored signed sx sy h (mirror sx sy h).
Proof. exact (mirror_mirrored sx sy h). Qed.
Print Assumptions C89_mirror.

(** Exchanging the axes is no such symmetry: sums of squares are rounded in another order. *)
Theorem C89_swap_refuted L : exists s P h, let A := ArithF L in
  snd (gd_run s P h) = Val (SOk 1) /\ snd (gd_run s P (swap h)) = Val (SOk 0).
Proof. exists long_sketch, long_gd, long_heap. exact (C89_swap_lemma L). Qed.
Print Assumptions C89_swap_refuted.

Example C89_libm_ex : symmetric_libm flat_libm /\ symmetric_pinv unit_pinv.
Proof. exact (conj flat_symmetric unit_symmetric). Qed.
(** a run of three iterations that moves the points *)
Example C89_ex : mirrored signed true false vane_heap (mirror true false vane_heap) /\
  @gd_run _ (ArithF flat_libm) vane_sketch vane_gd vane_heap = (vane_end, Val (SOk 3)) /\
  p_x (nth 2 (h_pts vane_end) (zp 0 0)) <> p_x (nth 2 (h_pts vane_heap) (zp 0 0)) /\ p_x (nth 2 (h_pts vane_end) (zp 0 0)) <> S754_zero false.
Proof. exact (conj vane_mirrored (conj vane_run vane_moves)). Qed.
