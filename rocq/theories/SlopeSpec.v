(** * Vocabulary of C86: how exactly binary64 gradients measure the slope *)
From Coq Require Import List ZArith Bool Reals Floats.SpecFloat.
From Verif Require Import Arith Vec Prim Cons Sketch Solve Spec SolverSpec ArithR ArithF SerdeSpec ExactSpec LinearSpec TreeSpec RoundSpec AccuracySpec.
Import ListNotations.
Local Open Scope R_scope.

(** Constraint [k] is measurable, and what it divides by is not close to nothing: the distance of EuclideanDistance is
    at least 2^-19 (the code skips the constraint below 10^-6), and lines whose lengths are compared are at least 2^-100 long. *)
Definition smooth (L : libm) (M : R) (h : heap spec_float) (k : loc) : Prop :=
  measurable L M h k /\ let H := exact_heap h in let g := cfg_of H in
  match getK h k with
  | EuclideanDistance p1 p2 _ => / 2 ^ 19 <= len (from_to g p2 p1)
  | EqualLength l1 l2 => / 2 ^ 100 <= len (dirR g H l1) /\ / 2 ^ 100 <= len (dirR g H l2)
  | _ => True
  end.
(** The unit of the slope of constraint [k] in a sketch of size [M]: a length; for the ends of an arc also a length
    times a radius; for angles between lines one over the length of the shorter line. *)
Definition slope_unit (M : R) (h : heap spec_float) (k : loc) : R :=
  let H := exact_heap h in let g := cfg_of H in
  match getK h k with
  | ArcEndPointCoincident _ _ | ArcStartPointCoincident _ _ => M * Rmax 1 M
  | ParallelLines l1 l2 | PerpendicularLines l1 l2 => / Rmin (len (dirR g H l1)) (len (dirR g H l2))
  | _ => M
  end.
(** Sketches on which only solutions are flat, with a factor [K]: constraints entered one by one, each relating a point to
    another point or to a place (C85, [K] constraints); or constraints that are linear and can be satisfied (C78, [K] points). *)
Definition no_plateau (L : libm) (K : R) (h : heap spec_float) (s : sketch) : Prop := let A := ArithF L in
  (K = INR (length (s_cons s)) /\ refs_closed h s /\ one_by_one h s /\ forall k, In k (s_cons s) -> binary (getK h k) = true) \/
  (K = INR (length (points s)) /\ linear_sketch h s /\ finite_data h s /\
   exists x hx, at_point (exact_heap h) s (map Fin x) hx /\ all_satisfied hx s).
