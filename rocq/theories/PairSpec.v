(** * Sketches of separate pairs of points: what they are

    Independent of the solvers: every constraint is about the distance or the alignment of two
    points, and no point occurs in two of them. *)
From Coq Require Import Reals List Bool.
From Verif Require Import Arith Vec Prim Cons Sketch Spec ArithR ExactSpec TreeSpec.
Import ListNotations.
Local Open Scope R_scope.

(** constraints on the distance or the alignment of two points (src/constraints/distance/ and
    src/constraints/lines/{horizontal,vertical}_line.rs) *)
Definition two_point {F} (c : con F) : bool :=
  match c with
  | EuclideanDistance _ _ _ | HorizontalDistance _ _ _ | VerticalDistance _ _ _ | HorizontalLine _ | VerticalLine _ => true
  | _ => false
  end.
Definition separate_pairs {F} {A : Arith F} (h : heap F) (s : sketch) : Prop :=
  (forall k, In k (s_cons s) -> two_point (getK h k) = true) /\
  NoDup (flat_map (fun k => mentions h (getK h k)) (s_cons s)).

(** two points whose distance is prescribed are not on top of each other, nor meant to be, and
    not more than twice as far apart as they should be *)
Definition within_reach (h : heap xR) (s : sketch) : Prop :=
  forall k p1 p2 d, In k (s_cons s) -> getK h k = EuclideanDistance p1 p2 d ->
    let now := len (from_to (cfg_of h) p2 p1) in tiny <= now /\ tiny <= vx d /\ now <= 2 * vx d.

(** the midpoint of two points is the same in two states *)
Definition same_middle (g g' : cfg) (a b : loc) : Prop :=
  cx g' a + cx g' b = cx g a + cx g b /\ cy g' a + cy g' b = cy g a + cy g b.
(** the course of the solver: what is satisfied afterwards, and what stays *)
Definition settled (h h' : heap xR) (s : sketch) : Prop :=
  same_structure h h' /\ finite_data h' s /\ get_loss h' s = Fin 0 /\
  (forall k, In k (s_cons s) -> satisfied (cfg_of h') h' (getK h' k)) /\
  (forall k a b, In k (s_cons s) -> mentions h (getK h k) = [a; b] -> same_middle (cfg_of h) (cfg_of h') a b) /\
  (forall p, (forall k, In k (s_cons s) -> ~ In p (mentions h (getK h k))) ->
     cx (cfg_of h') p = cx (cfg_of h) p /\ cy (cfg_of h') p = cy (cfg_of h) p).
