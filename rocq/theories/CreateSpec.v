(** * What a constructor leaves behind (for C91) *)
From Coq Require Import List Arith.
From Verif Require Import Arith Vec Prim Cons Sketch Solve Api.

(** The call makes a new object. *)
Definition creates {F} (o : op F) : Prop :=
  match o with
  | NewPoint _ _ | NewLine _ _ | NewArc _ _ _ _ _ | NewCircle _ _ | NewCon _
  | AddPoint2 _ _ | AddLine _ _ | AddArc _ _ _ _ _ | Constrain _ => True
  | _ => False
  end.
(** The object at [l] has the contents asked for, with zero for a gradient. *)
Definition as_asked {F} {A : Arith F} (h : heap F) (o : op F) (l : loc) : Prop :=
  match o with
  | NewPoint x y | AddPoint2 x y => getP h l = mkPoint x y f0 f0
  | NewLine a b | AddLine a b => getL h l = mkLine a b
  | NewArc c r cw sa ea | AddArc c r cw sa ea => getA h l = mkArc c r sa ea f0 f0 f0 cw
  | NewCircle c r => getC h l = mkCircle c r f0
  | NewCon c | Constrain c => getK h l = c
  | _ => True
  end.
(** It was not there before. *)
Definition was_free {F} (h : heap F) (o : op F) (l : loc) : Prop :=
  match o with
  | NewPoint _ _ | AddPoint2 _ _ => length (h_pts h) <= l
  | NewLine _ _ | AddLine _ _ => length (h_lines h) <= l
  | NewArc _ _ _ _ _ | AddArc _ _ _ _ _ => length (h_arcs h) <= l
  | NewCircle _ _ => length (h_circs h) <= l
  | NewCon _ | Constrain _ => length (h_cons h) <= l
  | _ => True
  end.
(** Nothing that was there before has changed. *)
Definition kept_all {F} {A : Arith F} (h h' : heap F) : Prop :=
  (forall l, l < length (h_pts h) -> getP h' l = getP h l) /\ (forall l, l < length (h_lines h) -> getL h' l = getL h l) /\
  (forall l, l < length (h_arcs h) -> getA h' l = getA h l) /\ (forall l, l < length (h_circs h) -> getC h' l = getC h l) /\
  (forall l, l < length (h_cons h) -> getK h' l = getK h l).
