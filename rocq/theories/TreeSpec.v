(** * Sketches entered constraint by constraint: what they are

    Independent of the solvers.  A constraint acts on some points and, of these, on one or both
    coordinates; a sketch is entered constraint by constraint if each constraint, when it is
    entered, acts on the coordinates of a point no earlier constraint acts on. *)
From Coq Require Import Reals List Permutation Arith Bool.
From Verif Require Import Arith Vec Prim Cons Sketch Spec ArithR ExactSpec.
Import ListNotations.
Local Open Scope R_scope.

(** the points whose coordinates the loss of a constraint depends on, each as often as the
    constraint names it (src/constraints/: the references in each struct, lines and arcs replaced
    by their end points and centre) *)
Definition mentions {F} {A : Arith F} (h : heap F) (c : con F) : list loc :=
  let ends l := [l_start (getL h l); l_end (getL h l)] in
  match c with
  | AngleBetweenPoints p1 p2 pm _ => [p1; p2; pm]
  | ArcEndPointCoincident a p | ArcStartPointCoincident a p => [a_center (getA h a); p]
  | EuclideanDistance p1 p2 _ | HorizontalDistance p1 p2 _ | VerticalDistance p1 p2 _ => [p1; p2]
  | FixPoint p _ _ => [p]
  | EqualLength l1 l2 | ParallelLines l1 l2 | PerpendicularLines l1 l2 => ends l1 ++ ends l2
  | HorizontalLine l | VerticalLine l => ends l
  end.
(** whether it depends on their x and on their y coordinates *)
Definition acts_x {F} (c : con F) : bool :=
  match c with VerticalDistance _ _ _ | HorizontalLine _ => false | _ => true end.
Definition acts_y {F} (c : con F) : bool :=
  match c with HorizontalDistance _ _ _ | VerticalLine _ => false | _ => true end.
Definition apart {F} (c d : con F) : Prop := acts_x c && acts_x d = false /\ acts_y c && acts_y d = false.

(** constraints with the point each one positions, the last one entered first *)
Fixpoint entered {F} {A : Arith F} (h : heap F) (kps : list (loc * loc)) : Prop :=
  match kps with
  | [] => True
  | (k, p) :: rest =>
      count_occ Nat.eq_dec (mentions h (getK h k)) p = 1%nat /\
      (forall j q, In (j, q) rest -> In p (mentions h (getK h j)) -> apart (getK h k) (getK h j)) /\
      entered h rest
  end.
Definition one_by_one {F} {A : Arith F} (h : heap F) (s : sketch) : Prop :=
  exists kps, Permutation (map fst kps) (s_cons s) /\ entered h kps.

(** a parallel constraint on perpendicular lines and vice versa: the loss is largest there *)
Definition crosswise (g : cfg) (h : heap xR) (c : con xR) : Prop :=
  match c with
  | ParallelLines l1 l2 => dotR (dirR g h l1) (dirR g h l2) = 0
  | PerpendicularLines l1 l2 => crossR (dirR g h l1) (dirR g h l2) = 0
  | _ => False
  end.

(** constraints that relate a point to another one or to a given place *)
Definition binary {F} (c : con F) : bool :=
  match c with
  | AngleBetweenPoints _ _ _ _ | EqualLength _ _ | ParallelLines _ _ | PerpendicularLines _ _ => false
  | _ => true
  end.
(** distances that stay clear of zero as long as the loss is at most l *)
Definition roomy (h : heap xR) (s : sketch) (l : R) : Prop :=
  forall k p1 p2 d, In k (s_cons s) -> getK h k = EuclideanDistance p1 p2 d -> tiny + sqrt (2 * l) <= vx d.
