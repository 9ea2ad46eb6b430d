(** * Vocabulary of C92: how exactly angles are measured in binary64 *)
From Coq Require Import List ZArith Bool Reals Floats.SpecFloat.
From Verif Require Import Arith Vec Prim Cons Sketch Spec ArithR ArithF SerdeSpec ExactSpec RoundSpec AccuracySpec.
Import ListNotations.
Local Open Scope R_scope.

(** what is assumed of the platform's [acos]: an absolute error of at most 2^-50 *)
Definition accurate_acos (L : libm) : Prop := forall x, within 1 x ->
  finite64 (lm_acos L x) /\ Rabs (value (lm_acos L x) - acos (value x)) <= / 2 ^ 50.
(** the length of the arm from [pm] to [p], and the angle between two arms; nothing is rounded *)
Definition arm (h : heap spec_float) (pm p : loc) : R := len (from_to (cfg_of (exact_heap h)) pm p).
Definition angle_at (h : heap spec_float) (p1 p2 pm : loc) : R := angleR (cfg_of (exact_heap h)) p1 p2 pm.
(** The arms are told from degenerate ones by comparing their lengths with 10^-6.  A length is long, or short, if it
    is so by a relative margin of 2^-49. *)
Definition long (x : R) : Prop := tiny * (1 + / 2 ^ 49) <= x.
Definition short (x : R) : Prop := x <= tiny * (1 - / 2 ^ 49).
(** the coordinates of a point are at most [M] *)
Definition placed (L : libm) (M : R) (h : heap spec_float) (p : loc) : Prop := let A := ArithF L in
  Forall (within M) (prim_data h (PPoint p)).
(** as [measurable] of C84, but for all kinds of constraints *)
Definition measurable_any (L : libm) (M : R) (h : heap spec_float) (k : loc) : Prop := let A := ArithF L in
  match getK h k with
  | AngleBetweenPoints p1 p2 pm d =>
      placed L M h p1 /\ placed L M h p2 /\ placed L M h pm /\ within (2 ^ 20) d /\
      (long (arm h pm p1) \/ short (arm h pm p1)) /\ (long (arm h pm p2) \/ short (arm h pm p2))
  | _ => measurable L M h k
  end.
(** the error with which the loss measures a constraint, for a sketch of size [M] *)
Definition slack {F} (M : R) (c : con F) : R :=
  match c with AngleBetweenPoints _ _ _ _ => / 2 ^ 22 | _ => unit_of M c / 2 ^ 47 end.
