(** * Which RefCell guards every call takes

    [cell.borrow()] and [cell.borrow_mut()] return guards.  A guard that is a temporary lives
    until the end of its statement (for the iterator of a [for] loop or the scrutinee of
    [if let]: until the end of the loop or block), a guard bound by [let] until the end of its
    block, so guards are properly nested: [Guard x c inner] is a guard on [c], exclusive if [x],
    during which the guards [inner] are taken and dropped one after the other.  A call is the
    list of its outermost guards.  All branches of the code are listed; an early return, an
    error or a panic takes fewer guards.  References held by cells ([Rc]s) do not change during
    a call, so the lists depend on the heap only through them. *)
From Coq Require Import List Arith Bool.
From Verif Require Import Arith Vec Prim Cons Sketch.
Import ListNotations.

Inductive cellid := IPrim (c : pcell) | ICon (k : loc).
Inductive guard := Guard (excl : bool) (c : cellid) (inner : list guard).
Definition rd (c : pcell) (inner : list guard) : guard := Guard false (IPrim c) inner.   (* borrow() *)
Definition wr (c : pcell) (inner : list guard) : guard := Guard true (IPrim c) inner.    (* borrow_mut() *)

Section Borrow.
Context {F : Type} {A : Arith F}.
Variable h : heap F.

(** Line::start() and end() return clones of the handles (line.rs:34-48) *)
Definition startP (l : loc) : pcell := PPoint (l_start (getL h l)).
Definition endP (l : loc) : pcell := PPoint (l_end (getL h l)).
Definition arcC (a : loc) : pcell := PPoint (a_center (getA h a)).
Definition circC (c : loc) : pcell := PPoint (c_center (getC h c)).

(** Arc::start_point, end_point: two statements (arc.rs:110-111, 138-139) *)
Definition arc_point_guards (a : loc) : list guard := [rd (arcC a) []; rd (arcC a) []].
(** line.borrow().start().borrow().data() and the same for end(), e.g. equal_length.rs:53-54 *)
Definition line_ends_guards (l : loc) : list guard := [rd (PLine l) [rd (startP l) []]; rd (PLine l) [rd (endP l) []]].
(** line.borrow().start_gradient(), end_gradient(), e.g. equal_length.rs:81-82 *)
Definition line_grads_guards (l : loc) : list guard := [rd (PLine l) []; rd (PLine l) []].
(** cell.borrow_mut().add_to_gradient(..): point2.rs:46-50, line.rs:55-64, arc.rs:161-169 *)
Definition add_point_guards (p : loc) : list guard := [wr (PPoint p) []].
Definition add_line_guards (l : loc) : list guard := [wr (PLine l) [wr (startP l) []; wr (endP l) []]].
Definition add_arc_guards (a : loc) : list guard := [wr (PArc a) [wr (arcC a) []]].

(** ConstraintLike::loss_value; the guard on the constraint itself is taken by the caller *)
Definition loss_guards (c : con F) : list guard :=
  match c with
  | AngleBetweenPoints p1 p2 pm _ => [rd (PPoint p1) []; rd (PPoint p2) []; rd (PPoint pm) []]       (* 74-76 *)
  | ArcEndPointCoincident a p | ArcStartPointCoincident a p =>                                       (* 54-55 *)
      [rd (PArc a) (arc_point_guards a); rd (PPoint p) []]
  | EuclideanDistance p1 p2 _ | HorizontalDistance p1 p2 _ | VerticalDistance p1 p2 _ =>             (* 63-65 *)
      [rd (PPoint p1) []; rd (PPoint p2) []]
  | FixPoint p _ _ => [rd (PPoint p) []]                                                             (* 53 *)
  | HorizontalLine l | VerticalLine l => line_ends_guards l                                          (* 42-43 *)
  | EqualLength l1 l2 | ParallelLines l1 l2 | PerpendicularLines l1 l2 =>                            (* 53-57 *)
      line_ends_guards l1 ++ line_ends_guards l2
  end.
(** ConstraintLike::update_gradient *)
Definition update_guards (c : con F) : list guard :=
  loss_guards c ++
  match c with
  | AngleBetweenPoints p1 p2 pm _ =>                                                                 (* 134-136, 165-171 *)
      [rd (PPoint p1) []; rd (PPoint p2) []; rd (PPoint pm) []] ++
      add_point_guards p1 ++ add_point_guards p2 ++ add_point_guards pm
  | ArcEndPointCoincident a p | ArcStartPointCoincident a p =>                                       (* 69-77 *)
      [rd (PArc a) []; rd (PPoint p) []] ++ add_arc_guards a ++ add_point_guards p
  | EuclideanDistance p1 p2 _ | HorizontalDistance p1 p2 _ | VerticalDistance p1 p2 _ =>             (* 104-115, 101-112 *)
      [rd (PPoint p1) []; rd (PPoint p2) []] ++ add_point_guards p1 ++ add_point_guards p2
  | FixPoint p _ _ => add_point_guards p                                                             (* 63 *)
  | HorizontalLine l | VerticalLine l => line_grads_guards l ++ add_line_guards l ++ add_line_guards l  (* 55-63 *)
  | EqualLength l1 l2 | ParallelLines l1 l2 | PerpendicularLines l1 l2 =>                            (* 81-92, 101-121, 99-119 *)
      line_grads_guards l1 ++ line_grads_guards l2 ++ add_line_guards l1 ++ add_line_guards l2
  end.

(** ** Sketch methods (sketch/mod.rs) *)
Variable s : sketch.
Definition cells_of : list pcell := map snd (s_prims s).
Definition each (g : pcell -> list guard) : list guard := flat_map g cells_of.
Definition n_dofs_guards : list guard := each (fun c => [rd c []]).                                  (* 207-209 *)
Definition get_data_guards : list guard := n_dofs_guards ++ each (fun c => [rd c []]).               (* 214-223 *)
Definition losses_guards : list guard :=                                                             (* 228-230, 262-264 *)
  map (fun k => Guard false (ICon k) (loss_guards (getK h k))) (s_cons s).
Definition zero_guards : list guard := each (fun c => [wr c []]).                                    (* 235-237, 272-274 *)
Definition update_con (k : loc) : list guard := [Guard true (ICon k) (update_guards (getK h k))].    (* 240, 276 *)
Definition gradient_guards : list guard :=                                                           (* 234-257 *)
  zero_guards ++ flat_map update_con (s_cons s) ++ n_dofs_guards ++ each (fun c => [rd c []]).
Definition jacobian_guards : list guard :=                                                           (* 268-290 *)
  n_dofs_guards ++ flat_map (fun k => zero_guards ++ update_con k ++ each (fun c => [rd c []])) (s_cons s).
Definition set_data_guards : list guard := n_dofs_guards ++ each (fun c => [rd c []; wr c []]).      (* 293-300 *)
Definition check_guards (k : loc) (dofs : pcell -> nat) : list guard :=                              (* 304-341 *)
  gradient_guards ++ [Guard false (ICon k) (loss_guards (getK h k))] ++
  each (fun c => [rd c []; rd c []; rd c []] ++
    concat (repeat [wr c []; Guard false (ICon k) (loss_guards (getK h k)); wr c []] (dofs c))).

(** ** Decomposition (decompose/mod.rs:114-119, 184-186, segment.rs, ring.rs:59-60) and derived
    equality, which compares the contents of two cells through two guards held together *)
Inductive dread :=
| CloneCell (c : pcell)                     (* l.borrow().clone() *)
| SegmentEnds (c : pcell)                   (* get_start, get_end, start_angle, end_angle *)
| CircleCenter (c : loc)                    (* as_polygon of a circle *)
| ComparePoints (p q : loc).                (* Rc<RefCell<Point2>> == Rc<RefCell<Point2>> *)
Definition dread_guards (d : dread) : list guard :=
  match d with
  | CloneCell c => [rd c []]
  | SegmentEnds (PLine l) => [rd (startP l) []; rd (endP l) []]
  | SegmentEnds (PArc a) => arc_point_guards a ++ arc_point_guards a
  | SegmentEnds _ => []
  | CircleCenter c => [rd (circC c) []]
  | ComparePoints p q => [rd (PPoint p) [rd (PPoint q) []]]
  end.

(** ** Serialisation: serde's impl for RefCell borrows the cell while its contents are written *)
Definition prim_ser (c : pcell) : guard :=
  match c with
  | PPoint _ => rd c []
  | PLine l => rd c [rd (startP l) []; rd (endP l) []]
  | PArc a => rd c [rd (arcC a) []]
  | PCircle k => rd c [rd (circC k) []]
  end.
Definition serialize_guards : list guard :=
  each (fun c => [prim_ser c]) ++ map (fun k => Guard false (ICon k) (map prim_ser (con_refs (getK h k)))) (s_cons s).

Inductive call :=
| CAddPrimitive (c : pcell)                 (* 38: the guard lives during the loop *)
| CAddConstraint (k : loc)                  (* 159 *)
| CNumDofs | CGetData | CGetLosses | CGetAllPoints (* 349 *)
| CGetGradient | CGetJacobian | CSetData | CCheckGradients (k : loc) (dofs : pcell -> nat)
| CDecompose (l : list dread)               (* get_segments, find_rings, get_faces, ...: any sequence of reads *)
| CSerialize.
Definition call_guards (o : call) : list guard :=
  match o with
  | CAddPrimitive c => [rd c []]
  | CAddConstraint k => [Guard false (ICon k) []]
  | CNumDofs => n_dofs_guards
  | CGetData => get_data_guards
  | CGetLosses => losses_guards
  | CGetAllPoints => each (fun c => [rd c []])
  | CGetGradient => gradient_guards
  | CGetJacobian => jacobian_guards
  | CSetData => set_data_guards
  | CCheckGradients k dofs => check_guards k dofs
  | CDecompose l => flat_map dread_guards l
  | CSerialize => serialize_guards
  end.
(** Solver::solve and the line search only use the methods above *)
Definition calls_guards (l : list call) : list guard := flat_map call_guards l.
End Borrow.
