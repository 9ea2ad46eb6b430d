(** * Vocabulary of the properties about congruent sketches (C66, C67) *)
From Coq Require Import Reals List Arith Permutation.
From Verif Require Import Arith Vec Prim Cons Sketch Solve Spec ArithR ExactSpec MotionSpec.
Import ListNotations.
Local Open Scope R_scope.

(** which object of the second sketch plays the role of which object of the first *)
Record renaming := mkRen { rn_point : loc -> loc; rn_line : loc -> loc; rn_arc : loc -> loc; rn_circle : loc -> loc }.
Definition ren (r : renaming) (c : pcell) : pcell :=
  match c with
  | PPoint l => PPoint (rn_point r l)
  | PLine l => PLine (rn_line r l)
  | PArc l => PArc (rn_arc r l)
  | PCircle l => PCircle (rn_circle r l)
  end.

(** rotation by [phi] about the origin, then translation by [(tx, ty)] *)
Definition move_x (phi tx x y : R) : R := x * cos phi - y * sin phi + tx.
Definition move_y (phi ty x y : R) : R := x * sin phi + y * cos phi + ty.
(** what the motion does to the numbers of a primitive *)
Definition move_data (phi tx ty : R) (c : pcell) (d : list R) : list R :=
  match c, d with
  | PPoint _, [x; y] => [move_x phi tx x y; move_y phi ty x y]
  | PArc _, [radius; sa; ea] => [radius; sa + phi; ea + phi]
  | _, _ => d
  end.
(** the same constraint on the objects of the second sketch *)
Definition rename_con (r : renaming) (c : con xR) : con xR :=
  match c with
  | AngleBetweenPoints p1 p2 pm d => AngleBetweenPoints (rn_point r p1) (rn_point r p2) (rn_point r pm) d
  | ArcEndPointCoincident a p => ArcEndPointCoincident (rn_arc r a) (rn_point r p)
  | ArcStartPointCoincident a p => ArcStartPointCoincident (rn_arc r a) (rn_point r p)
  | EuclideanDistance p1 p2 d => EuclideanDistance (rn_point r p1) (rn_point r p2) d
  | HorizontalDistance p1 p2 d => HorizontalDistance (rn_point r p1) (rn_point r p2) d
  | VerticalDistance p1 p2 d => VerticalDistance (rn_point r p1) (rn_point r p2) d
  | FixPoint p x y => FixPoint (rn_point r p) x y
  | EqualLength l1 l2 => EqualLength (rn_line r l1) (rn_line r l2)
  | HorizontalLine l => HorizontalLine (rn_line r l)
  | VerticalLine l => VerticalLine (rn_line r l)
  | ParallelLines l1 l2 => ParallelLines (rn_line r l1) (rn_line r l2)
  | PerpendicularLines l1 l2 => PerpendicularLines (rn_line r l1) (rn_line r l2)
  end.
(** The two sketches consist of the same primitives, with the same numbers, and of the same
    constraints.  They may have been entered in a different order, and ids and addresses may differ. *)
Definition same_sketch (r : renaming) (h1 : heap xR) (s1 : sketch) (h2 : heap xR) (s2 : sketch) : Prop :=
  (forall c d, registered s1 c -> registered s1 d -> ren r c = ren r d -> c = d) /\
  (forall c2, registered s2 c2 <-> exists c, registered s1 c /\ c2 = ren r c) /\
  Permutation (map (getK h2) (s_cons s2)) (map (fun k => rename_con r (getK h1 k)) (s_cons s1)) /\
  (forall c, registered s1 c -> prim_refs h2 (ren r c) = map (ren r) (prim_refs h1 c)) /\
  (forall c, registered s1 c -> prim_data h2 (ren r c) = prim_data h1 c).

(** what the motion does to a constraint: only the target of FixPoint moves *)
Definition move_con (r : renaming) (phi tx ty : R) (c : con xR) : con xR :=
  match c with
  | FixPoint p x y => FixPoint (rn_point r p) (Fin (move_x phi tx (vx x) (vx y))) (Fin (move_y phi ty (vx x) (vx y)))
  | _ => rename_con r c
  end.
(** The two sketches consist of the same primitives and the same constraints, up to the order in
    which they are stored, up to ids and addresses, and up to the motion. *)
Definition congruent (r : renaming) (phi tx ty : R) (h1 : heap xR) (s1 : sketch) (h2 : heap xR) (s2 : sketch) : Prop :=
  (forall c d, registered s1 c -> registered s1 d -> ren r c = ren r d -> c = d) /\
  (forall c2, registered s2 c2 <-> exists c, registered s1 c /\ c2 = ren r c) /\
  Permutation (map (getK h2) (s_cons s2)) (map (fun k => move_con r phi tx ty (getK h1 k)) (s_cons s1)) /\
  (forall c, registered s1 c -> prim_refs h2 (ren r c) = map (ren r) (prim_refs h1 c)) /\
  (forall c d, registered s1 c -> prim_data h1 c = map Fin d -> prim_data h2 (ren r c) = map Fin (move_data phi tx ty c d)).

(** the constraints whose meaning does not change under a rotation *)
Definition turns_with (c : con xR) : bool :=
  match c with
  | HorizontalDistance _ _ _ | VerticalDistance _ _ _ | HorizontalLine _ | VerticalLine _ => false
  | _ => true
  end.

(** linear isometries of vectors with [n] entries *)
Definition isometry (n : nat) (Q : list R -> list R) : Prop :=
  (forall v, length v = n -> length (Q v) = n) /\
  (forall u v, length u = n -> length v = n -> Q (map2 Rplus u v) = map2 Rplus (Q u) (Q v)) /\
  (forall a v, length v = n -> Q (map (Rmult a) v) = map (Rmult a) (Q v)) /\
  (forall u v, length u = n -> length v = n -> dotL (Q u) (Q v) = dotL u v) /\
  (forall v, length v = n -> exists u, length u = n /\ Q u = v).
(** A pseudo-inverse routine that does not depend on the choice of coordinates: if [b] is [a] seen
    through an isometry, then so are the results, failures included.  The truncated pseudo-inverse of
    exact arithmetic is such a routine: it is a function of the linear map and the dot product. *)
Definition coordinate_free (pinv : mat xR -> xR -> pinv_res (mat xR)) : Prop :=
  forall n Q a b eps, isometry n Q -> symmetric n a -> symmetric n b ->
  (forall v, length v = n -> mulR b (Q v) = Q (mulR a v)) ->
  match pinv (map (map Fin) a) eps, pinv (map (map Fin) b) eps with
  | PInv x, PInv y => exists p q, x = map (map Fin) p /\ y = map (map Fin) q /\
      length p = n /\ List.Forall (fun r => length r = n) p /\ length q = n /\ List.Forall (fun r => length r = n) q /\
      forall v, length v = n -> mulR q (Q v) = Q (mulR p v)
  | PErr, PErr => True
  | PPanic, PPanic => True
  | _, _ => False
  end.
(** BFGS stops on the largest entry of the gradient, which only quarter turns preserve *)
Definition stops_alike (phi : R) (sol : solver xR) : Prop :=
  match sol with BFGS _ => sin phi = 0 \/ cos phi = 0 | _ => True end.
