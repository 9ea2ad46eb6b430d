(** * Primitives and constraints as values, and the comparisons derived on them

    [PrimitiveCell] and [ConstraintCell] are handles, compared by address.  The enums
    [Primitive] and [Constraint] hold a copy of the object itself; [==], [<] ... on them are
    derived from the fields.  A field of type [Rc<RefCell<T>>] is compared through the
    pointer, by the current value of the cell (std: [Rc] and [RefCell] forward [PartialEq]
    and [PartialOrd]; the address shortcut of [Rc] needs [T : Eq], which no type holding an
    f64 is), so every comparison below reads the heap. *)
From Coq Require Import List ZArith Arith Bool.
From Verif Require Import Arith Vec Prim Cons Decomp.
Import ListNotations.

Section Value.
Context {F : Type} {A : Arith F}.

(** src/primitives/mod.rs:27-35 *)
Inductive primitive :=
| VPoint (p : point F) | VLine (l : line) | VArc (a : arc F) | VCircle (c : circle F).

(** to_primitive: point2.rs:80-82, line.rs:93-95, arc.rs:193-195, circle.rs:86-88.
    The derived [Clone] copies the vectors and, for a field [Rc<..>], the handle. *)
Definition to_primitive (h : heap F) (c : pcell) : primitive :=
  match c with
  | PPoint l => VPoint (getP h l)
  | PLine l => VLine (getL h l)
  | PArc l => VArc (getA h l)
  | PCircle l => VCircle (getC h l)
  end.

(** as_primitive_like (mod.rs:37-46) followed by references / get_data / get_gradient of
    the copy (line numbers at [prim_refs], [prim_data], [prim_grad] in Prim.v). *)
Definition val_refs (v : primitive) : list pcell :=
  match v with
  | VPoint _ => []
  | VLine l => [PPoint (l_start l); PPoint (l_end l)]
  | VArc a => [PPoint (a_center a)]
  | VCircle c => [PPoint (c_center c)]
  end.
Definition val_data (v : primitive) : vec F :=
  match v with
  | VPoint p => [p_x p; p_y p]
  | VLine _ => []
  | VArc a => [a_radius a; a_sa a; a_ea a]
  | VCircle c => [c_radius c]
  end.
Definition val_grad (v : primitive) : vec F :=
  match v with
  | VPoint p => [p_gx p; p_gy p]
  | VLine _ => []
  | VArc a => [a_gr a; a_gsa a; a_gea a]
  | VCircle c => [c_gr c]
  end.

(** get_type of the twelve constraints (angle_between_points.rs:176-178,
    arc_{end,start}_point_coincident.rs:80-82, euclidian_distance..:118-120,
    {horizontal,vertical}_distance..:115-117, fix_point.rs:66-68, equal_length.rs:95-97,
    {horizontal,vertical}_line.rs:66-68, parallel_lines.rs:123-125,
    perpendicular_lines.rs:121-123): a copy of the object.  Its methods, reached through
    as_constraint_like (constraints/mod.rs:46-63), are [con_refs], [loss_value] and
    [update_gradient]. *)
Definition get_type (h : heap F) (k : loc) : con F := getK h k.

(** ** PartialEq, derived *)

(** [Primitive] (mod.rs:27); the structs: [point_eq] ... [circle_eq] in Decomp.v *)
Definition primitive_eq (h : heap F) (v w : primitive) : bool :=
  match v, w with
  | VPoint p, VPoint q => point_eq p q
  | VLine l, VLine m => line_eq h l m
  | VArc a, VArc b => arc_eq h a b
  | VCircle c, VCircle d => circle_eq h c d
  | _, _ => false
  end.

Definition cell_eq_point (h : heap F) (l m : loc) := point_eq (getP h l) (getP h m).
Definition cell_eq_line (h : heap F) (l m : loc) := line_eq h (getL h l) (getL h m).
Definition cell_eq_arc (h : heap F) (l m : loc) := arc_eq h (getA h l) (getA h m).

(** [Constraint] (constraints/mod.rs:26) and the twelve structs, fields in declaration order *)
Definition con_eq (h : heap F) (c d : con F) : bool :=
  match c, d with
  | AngleBetweenPoints p1 p2 pm x, AngleBetweenPoints q1 q2 qm y =>
      cell_eq_point h p1 q1 && cell_eq_point h p2 q2 && cell_eq_point h pm qm && feq x y
  | ArcEndPointCoincident a p, ArcEndPointCoincident b q
  | ArcStartPointCoincident a p, ArcStartPointCoincident b q =>
      cell_eq_arc h a b && cell_eq_point h p q
  | EuclideanDistance p1 p2 x, EuclideanDistance q1 q2 y
  | HorizontalDistance p1 p2 x, HorizontalDistance q1 q2 y
  | VerticalDistance p1 p2 x, VerticalDistance q1 q2 y =>
      cell_eq_point h p1 q1 && cell_eq_point h p2 q2 && feq x y
  | FixPoint p x y, FixPoint q x' y' => cell_eq_point h p q && (feq x x' && feq y y')
  | HorizontalLine l, HorizontalLine m | VerticalLine l, VerticalLine m => cell_eq_line h l m
  | EqualLength l1 l2, EqualLength m1 m2
  | ParallelLines l1 l2, ParallelLines m1 m2
  | PerpendicularLines l1 l2, PerpendicularLines m1 m2 =>
      cell_eq_line h l1 m1 && cell_eq_line h l2 m2
  | _, _ => false
  end.

(** ** PartialOrd, derived: [a.partial_cmp(&b)] *)

(** std, f64: from [a <= b] and [a >= b] *)
Definition f64_cmp (a b : F) : option comparison :=
  match fle a b, fge a b with
  | false, false => None
  | false, true => Some Gt
  | true, false => Some Lt
  | true, true => Some Eq
  end.

(** nalgebra 0.32, base/matrix.rs, [PartialOrd::partial_cmp] for [Matrix]: the components
    must not disagree about the order.  [first_ord] is the order found so far. *)
Fixpoint vec_cmp_rest (first_ord : comparison) (v w : vec F) : option comparison :=
  match v, w with
  | a :: v', b :: w' =>
      match f64_cmp a b with
      | Some Eq => vec_cmp_rest first_ord v' w'
      | Some Lt => match first_ord with Gt => None | _ => vec_cmp_rest Lt v' w' end
      | Some Gt => match first_ord with Lt => None | _ => vec_cmp_rest Gt v' w' end
      | None => None
      end
  | _, _ => Some first_ord
  end.
Definition vec_cmp (v w : vec F) : option comparison :=
  match v, w with
  | a :: v', b :: w' =>
      match f64_cmp a b with Some o => vec_cmp_rest o v' w' | None => None end
  | _, _ => Some Eq
  end.

(** derive: the next field decides if the previous ones are equal *)
Definition then_cmp (c : option comparison) (k : option comparison) : option comparison :=
  match c with Some Eq => k | _ => c end.
Definition bool_cmp (a b : bool) : option comparison :=          (* false < true *)
  Some (if a then (if b then Eq else Gt) else (if b then Lt else Eq)).

(** point2.rs:9-15 *)
Definition point_cmp (p q : point F) : option comparison :=
  then_cmp (vec_cmp [p_x p; p_y p] [p_x q; p_y q]) (vec_cmp [p_gx p; p_gy p] [p_gx q; p_gy q]).
Definition cell_cmp_point (h : heap F) (l m : loc) := point_cmp (getP h l) (getP h m).
(** line.rs:13-20 *)
Definition line_cmp (h : heap F) (l m : line) : option comparison :=
  then_cmp (cell_cmp_point h (l_start l) (l_start m))
    (then_cmp (cell_cmp_point h (l_end l) (l_end m)) (vec_cmp [] [])).
(** arc.rs:12-21 *)
Definition arc_cmp (h : heap F) (a b : arc F) : option comparison :=
  then_cmp (cell_cmp_point h (a_center a) (a_center b))
    (then_cmp (vec_cmp [a_radius a; a_sa a; a_ea a] [a_radius b; a_sa b; a_ea b])
      (then_cmp (vec_cmp [a_gr a; a_gsa a; a_gea a] [a_gr b; a_gsa b; a_gea b])
        (bool_cmp (a_cw a) (a_cw b)))).
(** circle.rs:12-19 *)
Definition circle_cmp (h : heap F) (c d : circle F) : option comparison :=
  then_cmp (cell_cmp_point h (c_center c) (c_center d))
    (then_cmp (vec_cmp [c_radius c] [c_radius d]) (vec_cmp [c_gr c] [c_gr d])).

(** derive on an enum: different variants are ordered as declared *)
Definition primitive_tag (v : primitive) : nat :=
  match v with VPoint _ => 0 | VLine _ => 1 | VArc _ => 2 | VCircle _ => 3 end.
Definition primitive_cmp (h : heap F) (v w : primitive) : option comparison :=
  match v, w with
  | VPoint p, VPoint q => point_cmp p q
  | VLine l, VLine m => line_cmp h l m
  | VArc a, VArc b => arc_cmp h a b
  | VCircle c, VCircle d => circle_cmp h c d
  | _, _ => Some (Nat.compare (primitive_tag v) (primitive_tag w))
  end.

Definition cell_cmp_line (h : heap F) (l m : loc) := line_cmp h (getL h l) (getL h m).
Definition cell_cmp_arc (h : heap F) (l m : loc) := arc_cmp h (getA h l) (getA h m).

(** constraints/mod.rs:29-44 *)
Definition con_tag (c : con F) : nat :=
  match c with
  | AngleBetweenPoints _ _ _ _ => 0 | ArcEndPointCoincident _ _ => 1
  | ArcStartPointCoincident _ _ => 2 | EuclideanDistance _ _ _ => 3
  | HorizontalDistance _ _ _ => 4 | VerticalDistance _ _ _ => 5 | FixPoint _ _ _ => 6
  | EqualLength _ _ => 7 | HorizontalLine _ => 8 | VerticalLine _ => 9
  | ParallelLines _ _ => 10 | PerpendicularLines _ _ => 11
  end.
Definition con_cmp (h : heap F) (c d : con F) : option comparison :=
  match c, d with
  | AngleBetweenPoints p1 p2 pm x, AngleBetweenPoints q1 q2 qm y =>
      then_cmp (cell_cmp_point h p1 q1) (then_cmp (cell_cmp_point h p2 q2)
        (then_cmp (cell_cmp_point h pm qm) (f64_cmp x y)))
  | ArcEndPointCoincident a p, ArcEndPointCoincident b q
  | ArcStartPointCoincident a p, ArcStartPointCoincident b q =>
      then_cmp (cell_cmp_arc h a b) (cell_cmp_point h p q)
  | EuclideanDistance p1 p2 x, EuclideanDistance q1 q2 y
  | HorizontalDistance p1 p2 x, HorizontalDistance q1 q2 y
  | VerticalDistance p1 p2 x, VerticalDistance q1 q2 y =>
      then_cmp (cell_cmp_point h p1 q1) (then_cmp (cell_cmp_point h p2 q2) (f64_cmp x y))
  | FixPoint p x y, FixPoint q x' y' =>
      then_cmp (cell_cmp_point h p q) (vec_cmp [x; y] [x'; y'])
  | HorizontalLine l, HorizontalLine m | VerticalLine l, VerticalLine m => cell_cmp_line h l m
  | EqualLength l1 l2, EqualLength m1 m2
  | ParallelLines l1 l2, ParallelLines m1 m2
  | PerpendicularLines l1 l2, PerpendicularLines m1 m2 =>
      then_cmp (cell_cmp_line h l1 m1) (cell_cmp_line h l2 m2)
  | _, _ => Some (Nat.compare (con_tag c) (con_tag d))
  end.

(** ** The constant gradient matrices that no constraint of the crate uses *)
Definition arc_center_gradient : mat F :=                         (* arc.rs:58-60 *)
  [[f1; f0; f0; f0; f0]; [f0; f1; f0; f0; f0]].
Definition arc_radius_gradient : mat F := [[f0; f0; f1; f0; f0]].       (* arc.rs:70-72 *)
Definition arc_start_angle_gradient : mat F := [[f0; f0; f0; f1; f0]].  (* arc.rs:82-84 *)
Definition arc_end_angle_gradient : mat F := [[f0; f0; f0; f0; f1]].    (* arc.rs:94-96 *)
Definition circle_center_gradient : mat F := [[f1; f0; f0]; [f0; f1; f0]].  (* circle.rs:38-40 *)
Definition circle_radius_gradient : mat F := [[f0; f0; f1]].            (* circle.rs:50-52 *)

End Value.
Arguments primitive : clear implicits.
