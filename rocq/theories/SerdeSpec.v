(** * Vocabulary of the serialisation properties, independent of [Serde] *)
From Coq Require Import List ZArith NArith Arith Bool.
From Verif Require Import Arith Vec Prim Cons Sketch Api Spec.
Import ListNotations.

Section SS.
Context {F : Type} {A : Arith F}.

(** the same kind of primitive, with the same parameters, the same direction flag and
    the same coordinates of the points it refers to *)
Definition looks_like (h : heap F) (c : pcell) (h' : heap F) (c' : pcell) : Prop :=
  match c, c' with
  | PPoint _, PPoint _ | PLine _, PLine _ | PCircle _, PCircle _ => True
  | PArc a, PArc a' => a_cw (getA h' a') = a_cw (getA h a)
  | _, _ => False
  end /\
  prim_data h' c' = prim_data h c /\
  map (prim_data h') (prim_refs h' c') = map (prim_data h) (prim_refs h c).

(** the numbers stored in a constraint *)
Definition con_params (c : con F) : list F :=
  match c with
  | AngleBetweenPoints _ _ _ d | EuclideanDistance _ _ d | HorizontalDistance _ _ d | VerticalDistance _ _ d => [d]
  | FixPoint _ x y => [x; y]
  | _ => []
  end.
(** the same kind of constraint with the same parameters on primitives that look alike *)
Definition con_looks_like (h : heap F) (c : con F) (h' : heap F) (c' : con F) : Prop :=
  same_kind c c' = true /\ con_params c' = con_params c /\
  Forall2 (fun r r' => looks_like h r h' r') (con_refs c) (con_refs c').

(** [h'] contains the cells of [h] unchanged *)
Definition extends (h h' : heap F) : Prop :=
  (forall l, l < length (h_pts h) -> l < length (h_pts h') /\ getP h' l = getP h l) /\
  (forall l, l < length (h_lines h) -> l < length (h_lines h') /\ getL h' l = getL h l) /\
  (forall l, l < length (h_arcs h) -> l < length (h_arcs h') /\ getA h' l = getA h l) /\
  (forall l, l < length (h_circs h) -> l < length (h_circs h') /\ getC h' l = getC h l) /\
  (forall l, l < length (h_cons h) -> l < length (h_cons h') /\ getK h' l = getK h l).

(** the cells the constraint [k] reads: its references and the points they refer to *)
Definition reads (h : heap F) (k : loc) (x : pcell) : Prop :=
  exists r, In r (con_refs (getK h k)) /\ (x = r \/ In x (prim_refs h r)).
End SS.
