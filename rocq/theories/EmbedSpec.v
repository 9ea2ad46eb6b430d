(** * The same drawing, stored elsewhere

    Vocabulary of C90.  [r] says which object of the second memory plays the role of which object of the first
    ([renaming] and [ren] are those of SymSpec.v). *)
From Coq Require Import List Permutation.
From Verif Require Import Arith Vec Prim Cons Sketch Spec SymSpec.
Import ListNotations.

Section Embed.
Context {F : Type} {A : Arith F}.

(** the same constraint, with the same target values, on the objects of the second memory *)
Definition place_con (r : renaming) (c : con F) : con F :=
  match c with
  | AngleBetweenPoints p1 p2 pm d => AngleBetweenPoints (rn_point r p1) (rn_point r p2) (rn_point r pm) d
  | ArcEndPointCoincident a p => ArcEndPointCoincident (rn_arc r a) (rn_point r p)
  | ArcStartPointCoincident a p => ArcStartPointCoincident (rn_arc r a) (rn_point r p)
  | EuclideanDistance p1 p2 d => EuclideanDistance (rn_point r p1) (rn_point r p2) d
  | HorizontalDistance p1 p2 d => HorizontalDistance (rn_point r p1) (rn_point r p2) d
  | VerticalDistance p1 p2 d => VerticalDistance (rn_point r p1) (rn_point r p2) d
  | FixPoint p x y => FixPoint (rn_point r p) x y
  | EqualLength l1 l2 => EqualLength (rn_line r l1) (rn_line r l2)
  | HorizontalLine l => HorizontalLine (rn_line r l)
  | VerticalLine l => VerticalLine (rn_line r l)
  | ParallelLines l1 l2 => ParallelLines (rn_line r l1) (rn_line r l2)
  | PerpendicularLines l1 l2 => PerpendicularLines (rn_line r l1) (rn_line r l2)
  end.

(** The two sketches hold the same primitives in the same order, with the same numbers and the same references, and the
    same constraints in the same order.  Ids, addresses, cached gradients, the senses of rotation of arcs and everything
    in memory that is not registered may differ. *)
Definition same_drawing (r : renaming) (h1 : heap F) (s1 : sketch) (h2 : heap F) (s2 : sketch) : Prop :=
  (forall c d, registered s1 c -> registered s1 d -> ren r c = ren r d -> c = d) /\
  map snd (s_prims s2) = map (ren r) (map snd (s_prims s1)) /\
  map (getK h2) (s_cons s2) = map (fun k => place_con r (getK h1 k)) (s_cons s1) /\
  (forall c, registered s1 c -> prim_refs h2 (ren r c) = map (ren r) (prim_refs h1 c)) /\
  (forall c, registered s1 c -> prim_data h2 (ren r c) = prim_data h1 c).

(** the same, but the constraints may be stored in another order *)
Definition same_drawing_up_to_order (r : renaming) (h1 : heap F) (s1 : sketch) (h2 : heap F) (s2 : sketch) : Prop :=
  (forall c d, registered s1 c -> registered s1 d -> ren r c = ren r d -> c = d) /\
  map snd (s_prims s2) = map (ren r) (map snd (s_prims s1)) /\
  Permutation (map (getK h2) (s_cons s2)) (map (fun k => place_con r (getK h1 k)) (s_cons s1)) /\
  (forall c, registered s1 c -> prim_refs h2 (ren r c) = map (ren r) (prim_refs h1 c)) /\
  (forall c, registered s1 c -> prim_data h2 (ren r c) = prim_data h1 c).
End Embed.
