(** * Heap and primitives  (src/primitives/*.rs)

    [Rc<RefCell<T>>] is a location into the list of cells of type T; [Rc::clone] copies the
    location.  A handle obtained in safe Rust always denotes a live cell, so every location
    the program holds is in range ([heap_ok] in Api.v); reads are totalised with a zero cell. *)
From Coq Require Import List ZArith Arith Bool.
From Verif Require Import Arith Vec.
Import ListNotations.

Definition loc := nat.

(** Outcome of a computation that may panic. *)
Inductive out (T : Type) : Type := Val (x : T) | Panic.
Arguments Val {T} _.  Arguments Panic {T}.

(** Generic list cell update. *)
Fixpoint lset {T} (l : list T) (i : nat) (x : T) : list T :=
  match l, i with
  | [], _ => []
  | _ :: l', O => x :: l'
  | y :: l', S i' => y :: lset l' i' x
  end.

(** src/primitives/mod.rs:50-56 [PrimitiveCell]: a typed handle.
    [PartialEq] (mod.rs:87-91) is pointer equality; cells of different types never share
    an address, so it is equality of typed locations. *)
Inductive pcell := PPoint (l : loc) | PLine (l : loc) | PArc (l : loc) | PCircle (l : loc).

Definition pcell_eqb (a b : pcell) : bool :=
  match a, b with
  | PPoint x, PPoint y | PLine x, PLine y | PArc x, PArc y | PCircle x, PCircle y => Nat.eqb x y
  | _, _ => false
  end.

Section Prim.
Context {F : Type} {A : Arith F}.

(** src/primitives/point2.rs:12-15 *)
Record point := mkPoint { p_x : F; p_y : F; p_gx : F; p_gy : F }.
(** src/primitives/line.rs:16-20 (the zero-length vector [empty] carries no information) *)
Record line := mkLine { l_start : loc; l_end : loc }.
(** src/primitives/arc.rs:15-21: data = [radius, start_angle, end_angle] *)
Record arc := mkArc { a_center : loc; a_radius : F; a_sa : F; a_ea : F;
                      a_gr : F; a_gsa : F; a_gea : F; a_cw : bool }.
(** src/primitives/circle.rs:15-19 *)
Record circle := mkCircle { c_center : loc; c_radius : F; c_gr : F }.

(** Constraint objects, one constructor per struct in src/constraints (the enum
    src/constraints/mod.rs:29-44; fields in declaration order). *)
Inductive con :=
| AngleBetweenPoints (p1 p2 pm : loc) (desired : F)     (* angle_between_points.rs:17-23 *)
| ArcEndPointCoincident (a p : loc)                     (* arc_end_point_coincident.rs:18-21 *)
| ArcStartPointCoincident (a p : loc)                   (* arc_start_point_coincident.rs:18-21 *)
| EuclideanDistance (p1 p2 : loc) (desired : F)         (* euclidian_distance_between_points.rs:17-22 *)
| HorizontalDistance (p1 p2 : loc) (desired : F)        (* horizontal_distance_between_points.rs:18-23 *)
| VerticalDistance (p1 p2 : loc) (desired : F)          (* vertical_distance_between_points.rs:18-23 *)
| FixPoint (p : loc) (dx dy : F)                        (* fix_point.rs:18-22 *)
| EqualLength (l1 l2 : loc)                             (* equal_length.rs:17-20 *)
| HorizontalLine (l : loc)                              (* horizontal_line.rs:18-20 *)
| VerticalLine (l : loc)                                (* vertical_line.rs:18-20 *)
| ParallelLines (l1 l2 : loc)                           (* parallel_lines.rs:18-21 *)
| PerpendicularLines (l1 l2 : loc).                     (* perpendicular_lines.rs:18-21 *)

Record heap := mkHeap {
  h_pts : list point; h_lines : list line; h_arcs : list arc; h_circs : list circle;
  h_cons : list con }.

Definition heap0 : heap := mkHeap [] [] [] [] [].

Definition pt0 : point := mkPoint f0 f0 f0 f0.
Definition line0 : line := mkLine 0 0.
Definition arc0 : arc := mkArc 0 f0 f0 f0 f0 f0 f0 false.
Definition circ0 : circle := mkCircle 0 f0 f0.
Definition con0 : con := HorizontalLine 0.

(** [cell.borrow()] *)
Definition getP (h : heap) (l : loc) : point := nth l (h_pts h) pt0.
Definition getL (h : heap) (l : loc) : line := nth l (h_lines h) line0.
Definition getA (h : heap) (l : loc) : arc := nth l (h_arcs h) arc0.
Definition getC (h : heap) (l : loc) : circle := nth l (h_circs h) circ0.
Definition getK (h : heap) (l : loc) : con := nth l (h_cons h) con0.
(** [*cell.borrow_mut() = x] *)
Definition setP (h : heap) (l : loc) (x : point) : heap :=
  mkHeap (lset (h_pts h) l x) (h_lines h) (h_arcs h) (h_circs h) (h_cons h).
Definition setL (h : heap) (l : loc) (x : line) : heap :=
  mkHeap (h_pts h) (lset (h_lines h) l x) (h_arcs h) (h_circs h) (h_cons h).
Definition setA (h : heap) (l : loc) (x : arc) : heap :=
  mkHeap (h_pts h) (h_lines h) (lset (h_arcs h) l x) (h_circs h) (h_cons h).
Definition setC (h : heap) (l : loc) (x : circle) : heap :=
  mkHeap (h_pts h) (h_lines h) (h_arcs h) (lset (h_circs h) l x) (h_cons h).
Definition setK (h : heap) (l : loc) (x : con) : heap :=
  mkHeap (h_pts h) (h_lines h) (h_arcs h) (h_circs h) (lset (h_cons h) l x).
(** [Rc::new(RefCell::new(x))] *)
Definition allocP (h : heap) (x : point) : heap * loc :=
  (mkHeap (h_pts h ++ [x]) (h_lines h) (h_arcs h) (h_circs h) (h_cons h), length (h_pts h)).
Definition allocL (h : heap) (x : line) : heap * loc :=
  (mkHeap (h_pts h) (h_lines h ++ [x]) (h_arcs h) (h_circs h) (h_cons h), length (h_lines h)).
Definition allocA (h : heap) (x : arc) : heap * loc :=
  (mkHeap (h_pts h) (h_lines h) (h_arcs h ++ [x]) (h_circs h) (h_cons h), length (h_arcs h)).
Definition allocC (h : heap) (x : circle) : heap * loc :=
  (mkHeap (h_pts h) (h_lines h) (h_arcs h) (h_circs h ++ [x]) (h_cons h), length (h_circs h)).
Definition allocK (h : heap) (x : con) : heap * loc :=
  (mkHeap (h_pts h) (h_lines h) (h_arcs h) (h_circs h) (h_cons h ++ [x]), length (h_cons h)).

(** A computation on the heap that may panic; the heap at the panic is kept. *)
Definition M (T : Type) := heap -> heap * out T.
Definition mret {T} (x : T) : M T := fun h => (h, Val x).
Definition mpanic {T} : M T := fun h => (h, Panic).
Definition mbind {T U} (m : M T) (f : T -> M U) : M U :=
  fun h => match m h with (h', Val x) => f x h' | (h', Panic) => (h', Panic) end.
Definition massert (b : bool) : M unit := if b then mret tt else mpanic.   (* assert!(b) *)
Fixpoint mfor {T} (l : list T) (f : T -> M unit) : M unit :=               (* for x in l *)
  match l with [] => mret tt | x :: l' => mbind (f x) (fun _ => mfor l' f) end.

(** ** Point2 (point2.rs) *)
Definition Point2_new (x y : F) : point := mkPoint x y f0 f0.                     (* 18-23 *)
Definition p_data (p : point) : F * F := (p_x p, p_y p).                          (* 33-35 *)
Definition point_gradient : mat F := [[f1; f0]; [f0; f1]].                        (* 37-39 *)
Definition Point2_set_x (l : loc) (x : F) : M unit :=                             (* 41-44 *)
  mbind (massert (ffin x)) (fun _ h =>
    let p := getP h l in (setP h l (mkPoint x (p_y p) (p_gx p) (p_gy p)), Val tt)).
Definition Point2_set_y (l : loc) (y : F) : M unit :=                             (* 46-49 *)
  mbind (massert (ffin y)) (fun _ h =>
    let p := getP h l in (setP h l (mkPoint (p_x p) y (p_gx p) (p_gy p)), Val tt)).
(** 51-55: assert finite, then self.gradient += gradient^T *)
Definition Point2_add_to_gradient (l : loc) (g : vec F) : M unit :=
  mbind (massert (all_finite g)) (fun _ h =>
    let p := getP h l in
    (setP h l (mkPoint (p_x p) (p_y p) (p_gx p +f nth 0 g f0) (p_gy p +f nth 1 g f0)), Val tt)).
(** set_data: assert finite; [from_row_slice] / [copy_from] panic on a wrong length *)
Definition Point2_set_data (l : loc) (d : vec F) : M unit :=                      (* 71-74 *)
  mbind (massert (all_finite d && Nat.eqb (length d) 2)) (fun _ h =>
    let p := getP h l in
    (setP h l (mkPoint (nth 0 d f0) (nth 1 d f0) (p_gx p) (p_gy p)), Val tt)).

(** ** Line (line.rs) *)
Definition start_gradient : mat F := [[f1; f0; f0; f0]; [f0; f1; f0; f0]].        (* 39-41 *)
Definition end_gradient : mat F := [[f0; f0; f1; f0]; [f0; f0; f0; f1]].          (* 51-53 *)
Definition Line_set_start (l : loc) (s : loc) (h : heap) : heap :=                (* 35-37 *)
  setL h l (mkLine s (l_end (getL h l))).
Definition Line_set_end (l : loc) (e : loc) (h : heap) : heap :=                  (* 47-49 *)
  setL h l (mkLine (l_start (getL h l)) e).
Definition Line_add_to_gradient (l : loc) (g : vec F) : M unit :=                 (* 55-64 *)
  mbind (massert (all_finite g)) (fun _ h =>
    let ln := getL h l in
    mbind (Point2_add_to_gradient (l_start ln) (firstn 2 g)) (fun _ =>
           Point2_add_to_gradient (l_end ln) (firstn 2 (skipn 2 g))) h).

(** ** Arc (arc.rs) *)
Definition Arc_new (c : loc) (r : F) (cw : bool) (sa ea : F) : arc :=             (* 24-38 *)
  mkArc c r sa ea f0 f0 f0 cw.
Definition Arc_reverse (a : arc) : arc :=                                         (* 40-48 *)
  Arc_new (a_center a) (a_radius a) (negb (a_cw a)) (a_ea a) (a_sa a).
Definition arc_start_point (h : heap) (a : arc) : F * F :=                        (* 106-114 *)
  let c := getP h (a_center a) in
  (p_x c +f a_radius a *f fcos (a_sa a), p_y c +f a_radius a *f fsin (a_sa a)).
Definition arc_end_point (h : heap) (a : arc) : F * F :=                          (* 134-141 *)
  let c := getP h (a_center a) in
  (p_x c +f a_radius a *f fcos (a_ea a), p_y c +f a_radius a *f fsin (a_ea a)).
Definition arc_start_point_gradient (a : arc) : mat F :=                          (* 116-132 *)
  [[f1; f0; fcos (a_sa a); fneg (a_radius a) *f fsin (a_sa a); f0];
   [f0; f1; fsin (a_sa a); a_radius a *f fcos (a_sa a); f0]].
Definition arc_end_point_gradient (a : arc) : mat F :=                            (* 143-159 *)
  [[f1; f0; fcos (a_ea a); f0; fneg (a_radius a) *f fsin (a_ea a)];
   [f0; f1; fsin (a_ea a); f0; a_radius a *f fcos (a_ea a)]].
Definition Arc_add_to_gradient (l : loc) (g : vec F) : M unit :=                  (* 161-168 *)
  mbind (massert (all_finite g)) (fun _ h =>
    mbind (Point2_add_to_gradient (a_center (getA h l)) (firstn 2 g)) (fun _ h =>
      let a := getA h l in
      (setA h l (mkArc (a_center a) (a_radius a) (a_sa a) (a_ea a)
                       (a_gr a +f nth 2 g f0) (a_gsa a +f nth 3 g f0) (a_gea a +f nth 4 g f0)
                       (a_cw a)), Val tt)) h).
Definition Arc_set_data (l : loc) (d : vec F) : M unit :=                         (* 188-191 *)
  mbind (massert (all_finite d && Nat.eqb (length d) 3)) (fun _ h =>
    let a := getA h l in
    (setA h l (mkArc (a_center a) (nth 0 d f0) (nth 1 d f0) (nth 2 d f0)
                     (a_gr a) (a_gsa a) (a_gea a) (a_cw a)), Val tt)).
Definition Arc_set_center (l c : loc) (h : heap) : heap :=                        (* 54-56 *)
  let a := getA h l in
  setA h l (mkArc c (a_radius a) (a_sa a) (a_ea a) (a_gr a) (a_gsa a) (a_gea a) (a_cw a)).
Definition Arc_set_radius (l : loc) (r : F) (h : heap) : heap :=                  (* 66-68 *)
  let a := getA h l in
  setA h l (mkArc (a_center a) r (a_sa a) (a_ea a) (a_gr a) (a_gsa a) (a_gea a) (a_cw a)).
Definition Arc_set_start_angle (l : loc) (s : F) (h : heap) : heap :=             (* 78-80 *)
  let a := getA h l in
  setA h l (mkArc (a_center a) (a_radius a) s (a_ea a) (a_gr a) (a_gsa a) (a_gea a) (a_cw a)).
Definition Arc_set_end_angle (l : loc) (e : F) (h : heap) : heap :=               (* 90-92 *)
  let a := getA h l in
  setA h l (mkArc (a_center a) (a_radius a) (a_sa a) e (a_gr a) (a_gsa a) (a_gea a) (a_cw a)).
Definition Arc_set_clockwise (l : loc) (b : bool) (h : heap) : heap :=            (* 102-104 *)
  let a := getA h l in
  setA h l (mkArc (a_center a) (a_radius a) (a_sa a) (a_ea a) (a_gr a) (a_gsa a) (a_gea a) b).

(** ** Circle (circle.rs) *)
Definition Circle_new (c : loc) (r : F) : circle := mkCircle c r f0.              (* 22-28 *)
Definition Circle_set_center (l c : loc) (h : heap) : heap :=                     (* 34-36 *)
  let x := getC h l in setC h l (mkCircle c (c_radius x) (c_gr x)).
Definition Circle_set_radius (l : loc) (r : F) (h : heap) : heap :=               (* 46-48 *)
  let x := getC h l in setC h l (mkCircle (c_center x) r (c_gr x)).
Definition Circle_add_to_gradient (l : loc) (g : vec F) : M unit :=               (* 54-61 *)
  mbind (massert (all_finite g)) (fun _ h =>
    mbind (Point2_add_to_gradient (c_center (getC h l)) (firstn 2 g)) (fun _ h =>
      let c := getC h l in
      (setC h l (mkCircle (c_center c) (c_radius c) (c_gr c +f nth 2 g f0)), Val tt)) h).
Definition Circle_set_data (l : loc) (d : vec F) : M unit :=                      (* 77-80 *)
  mbind (massert (all_finite d && Nat.eqb (length d) 1)) (fun _ h =>
    let c := getC h l in
    (setC h l (mkCircle (c_center c) (nth 0 d f0) (c_gr c)), Val tt)).

(** ** The PrimitiveLike trait (mod.rs:18-25), dispatched on the cell (mod.rs:58-85) *)

(** references(): point2.rs:59-61, line.rs:68-73, arc.rs:172-174, circle.rs:65-67 *)
Definition prim_refs (h : heap) (c : pcell) : list pcell :=
  match c with
  | PPoint _ => []
  | PLine l => [PPoint (l_start (getL h l)); PPoint (l_end (getL h l))]
  | PArc l => [PPoint (a_center (getA h l))]
  | PCircle l => [PPoint (c_center (getC h l))]
  end.

(** get_data(): point2.rs:67-69, line.rs:79-82, arc.rs:180-182, circle.rs:73-75 *)
Definition prim_data (h : heap) (c : pcell) : vec F :=
  match c with
  | PPoint l => let p := getP h l in [p_x p; p_y p]
  | PLine _ => []
  | PArc l => let a := getA h l in [a_radius a; a_sa a; a_ea a]
  | PCircle l => [c_radius (getC h l)]
  end.

(** get_gradient(): point2.rs:76-78, line.rs:88-91, arc.rs:184-186, circle.rs:82-84 *)
Definition prim_grad (h : heap) (c : pcell) : vec F :=
  match c with
  | PPoint l => let p := getP h l in [p_gx p; p_gy p]
  | PLine _ => []
  | PArc l => let a := getA h l in [a_gr a; a_gsa a; a_gea a]
  | PCircle l => [c_gr (getC h l)]
  end.

(** zero_gradient(): point2.rs:63-65, line.rs:75-77, arc.rs:176-178, circle.rs:69-71 *)
Definition prim_zero (h : heap) (c : pcell) : heap :=
  match c with
  | PPoint l => let p := getP h l in setP h l (mkPoint (p_x p) (p_y p) f0 f0)
  | PLine _ => h
  | PArc l => let a := getA h l in
      setA h l (mkArc (a_center a) (a_radius a) (a_sa a) (a_ea a) f0 f0 f0 (a_cw a))
  | PCircle l => let x := getC h l in setC h l (mkCircle (c_center x) (c_radius x) f0)
  end.

(** set_data(): point2.rs:71-74, line.rs:84-86 (does nothing), arc.rs:188-191,
    circle.rs:77-80 *)
Definition prim_set_data (c : pcell) (d : vec F) : M unit :=
  match c with
  | PPoint l => Point2_set_data l d
  | PLine _ => mret tt
  | PArc l => Arc_set_data l d
  | PCircle l => Circle_set_data l d
  end.

End Prim.
Arguments point : clear implicits.
Arguments arc : clear implicits.
Arguments circle : clear implicits.
Arguments con : clear implicits.
Arguments heap : clear implicits.
Arguments M : clear implicits.
