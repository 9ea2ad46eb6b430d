(** * C90: what is stored where has no influence, in any arithmetic *)
From Coq Require Import List ZArith NArith Bool Floats.SpecFloat.
From Verif Require Import Arith Vec Prim Cons Sketch Solve Spec ArithF SymSpec EmbedSpec EmbedLemmas EmbedExamples.
Import ListNotations.

(** Any solver with any pseudo-inverse, in any arithmetic - binary64 with any library included: on two sketches that are the
    same drawing a call returns the same, or panics on both, and leaves the same drawing. *)
Theorem C90_solve {F} {A : Arith F} pinv sol r (h1 h2 : heap F) s1 s2 :
  valid h1 s1 -> valid h2 s2 -> refs_closed h1 s1 -> same_drawing r h1 s1 h2 s2 ->
  snd (solve pinv sol s2 h2) = snd (solve pinv sol s1 h1) /\
  same_drawing r (fst (solve pinv sol s1 h1)) s1 (fst (solve pinv sol s2 h2)) s2.
Proof. exact (C90_solve_lemma pinv sol r h1 h2 s1 s2). Qed.
Print Assumptions C90_solve.

(** Moving both sketches to the same parameters, panics included. *)
Theorem C90_set_data {F} {A : Arith F} d r (h1 h2 : heap F) s1 s2 :
  valid h1 s1 -> valid h2 s2 -> refs_closed h1 s1 -> same_drawing r h1 s1 h2 s2 ->
  snd (set_data s2 d h2) = snd (set_data s1 d h1) /\
  same_drawing r (fst (set_data s1 d h1)) s1 (fst (set_data s2 d h2)) s2.
Proof. exact (C90_set_lemma d r h1 h2 s1 s2). Qed.
Print Assumptions C90_set_data.

(** All numbers read from the two sketches are equal; so are the panics. *)
Theorem C90_readings {F} {A : Arith F} r (h1 h2 : heap F) s1 s2 :
  valid h1 s1 -> valid h2 s2 -> refs_closed h1 s1 -> same_drawing r h1 s1 h2 s2 ->
  get_data h2 s2 = get_data h1 s1 /\ get_loss h2 s2 = get_loss h1 s1 /\
  get_loss_per_constraint h2 s2 = get_loss_per_constraint h1 s1 /\
  snd (get_gradient s2 h2) = snd (get_gradient s1 h1) /\ snd (get_jacobian s2 h2) = snd (get_jacobian s1 h1).
Proof. exact (C90_read_lemma r h1 h2 s1 s2). Qed.
Print Assumptions C90_readings.

(** The order of the constraints does have an influence in binary64 (in exact arithmetic it has none: C66). *)
Theorem C90_order_refuted L : let A := ArithF L in exists r h1 s1 h2 s2,
  valid h1 s1 /\ valid h2 s2 /\ refs_closed h1 s1 /\ same_drawing_up_to_order r h1 s1 h2 s2 /\ get_loss h1 s1 <> get_loss h2 s2.
Proof.
  exists same, (sum_heap [far; near; near]), sum_sketch, (sum_heap [near; near; far]), sum_sketch.
  exact (conj (proj1 (sum_valid L)) (conj (proj2 (sum_valid L)) (conj (sum_closed L) (conj (sum_same L) (sum_differs L))))).
Qed.
Print Assumptions C90_order_refuted.

(** a drawing and its copy among leftovers, with other ids, addresses, cached gradients and sense of rotation *)
Example C90_ex L : let A := ArithF L in valid tidy_heap tidy_sketch /\ valid attic_heap attic_sketch /\ refs_closed tidy_heap tidy_sketch /\
  same_drawing to_attic tidy_heap tidy_sketch attic_heap attic_sketch.
Proof. exact (conj (tidy_valid L) (conj (attic_valid L) (conj (tidy_closed L) (tidy_attic L)))). Qed.
