(** * Vocabulary of C84: how exactly binary64 losses measure the geometry *)
From Coq Require Import List ZArith Bool Reals Floats.SpecFloat.
From Verif Require Import Arith Vec Prim Cons Sketch Spec ArithR ArithF SerdeSpec ExactSpec RoundSpec.
Import ListNotations.
Local Open Scope R_scope.

(** a finite binary64 number that is at most [M] in absolute value *)
Definition within (M : R) (x : spec_float) : Prop := finite64 x /\ Rabs (value x) <= M.
(** what is assumed of the platform's [sin] and [cos]: an absolute error of at most 2^-50 *)
Definition accurate_sincos (L : libm) : Prop := forall x, finite64 x ->
  finite64 (lm_sin L x) /\ Rabs (value (lm_sin L x) - sin (value x)) <= / 2 ^ 50 /\
  finite64 (lm_cos L x) /\ Rabs (value (lm_cos L x) - cos (value x)) <= / 2 ^ 50.
(** The numbers constraint [k] works on are at most [M], except for the angles of arcs; lines whose directions are
    compared are at least 2^-100 long.  All kinds but AngleBetweenPoints. *)
Definition measurable (L : libm) (M : R) (h : heap spec_float) (k : loc) : Prop := let A := ArithF L in
  (forall p, reads h k (PPoint p) -> Forall (within M) (prim_data h (PPoint p))) /\
  (forall a, reads h k (PArc a) -> within M (a_radius (getA h a)) /\ finite64 (a_sa (getA h a)) /\ finite64 (a_ea (getA h a))) /\
  Forall (within M) (con_params (getK h k)) /\
  match getK h k with
  | AngleBetweenPoints _ _ _ _ => False
  | ParallelLines l1 l2 | PerpendicularLines l1 l2 =>
      let H := exact_heap h in / 2 ^ 100 <= len (dirR (cfg_of H) H l1) /\ / 2 ^ 100 <= len (dirR (cfg_of H) H l2)
  | _ => True
  end.
(** How far constraint [k] is from holding: a length, or the sine or cosine of an angle.  The coordinates and
    parameters are read as real numbers, and nothing is rounded. *)
Definition discrepancy (h : heap spec_float) (k : loc) : R :=
  let H := exact_heap h in sqrt (residual2 (cfg_of H) H (getK H k)).
(** the unit of the discrepancy, for a sketch of size [M] *)
Definition unit_of {F} (M : R) (c : con F) : R :=
  match c with ParallelLines _ _ | PerpendicularLines _ _ => 1 | _ => M end.
