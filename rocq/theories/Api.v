(** * Histories of public API calls

    A client owns handles to cells and one sketch and performs any sequence of the calls
    below.  Clones of the sketch and other sketches act on the same cells, so their effect
    on this sketch is covered by the cell operations.  After a panic the state is the one at
    the panic (a client may catch the unwind). *)
From Coq Require Import List ZArith NArith Arith Bool.
From Verif Require Import Arith Vec Prim Cons Sketch Solve.
Import ListNotations.

Section Api.
Context {F : Type} {A : Arith F}.
Variable pinv : mat F -> F -> pinv_res (mat F).

Inductive op :=
(* Rc::new(RefCell::new(X::new(..))) without registering *)
| NewPoint (x y : F) | NewLine (s e : loc) | NewArc (c : loc) (r : F) (cw : bool) (sa ea : F)
| NewCircle (c : loc) (r : F) | NewCon (c : con F)
(* Sketch methods *)
| AddPrimitive (c : pcell) | AddPoint2 (x y : F) | AddLine (s e : loc)
| AddArc (c : loc) (r : F) (cw : bool) (sa ea : F)
| AddConstraint (k : loc) | Constrain (c : con F)
| DeletePrimitive (id : N) | DeleteConstraint (k : loc)
| SetData (v : vec F) | GetGradient | GetJacobian | Solve (sol : solver F)
| CheckGradients (eps : F) (k : loc) (ceps : F)
(* methods and public fields of the cells *)
| PointSetX (l : loc) (x : F) | PointSetY (l : loc) (y : F) | PointAddGrad (l : loc) (gx gy : F)
| PointPut (l : loc) (p : point F)                    (* *cell.borrow_mut() = p *)
| LineSetStart (l s : loc) | LineSetEnd (l e : loc)
| ArcSetCenter (l c : loc)
| ArcPut (l : loc) (r sa ea gr gsa gea : F) (cw : bool)   (* the other public fields *)
| CircleSetCenter (l c : loc) | CirclePut (l : loc) (r g : F)
| ConSetParams (k : loc) (x y : F)                    (* set_desired_angle/distance/pos *)
| ConPut (k : loc) (c : con F)                        (* setters: any constraint of the same kind *)
| PrimSetData (c : pcell) (v : vec F) | PrimZero (c : pcell) | UpdateGradient (k : loc).

Inductive ret :=
| RetOk | RetId (id : N) | RetLoc (l : loc) | RetErr (e : err)
| RetVec (v : vec F) | RetMat (m : mat F) | RetSolve (r : sres unit) | RetPanic.

Definition same_kind (c d : con F) : bool :=
  match c, d with
  | AngleBetweenPoints _ _ _ _, AngleBetweenPoints _ _ _ _
  | ArcEndPointCoincident _ _, ArcEndPointCoincident _ _
  | ArcStartPointCoincident _ _, ArcStartPointCoincident _ _
  | EuclideanDistance _ _ _, EuclideanDistance _ _ _
  | HorizontalDistance _ _ _, HorizontalDistance _ _ _
  | VerticalDistance _ _ _, VerticalDistance _ _ _
  | FixPoint _ _ _, FixPoint _ _ _
  | EqualLength _ _, EqualLength _ _
  | HorizontalLine _, HorizontalLine _
  | VerticalLine _, VerticalLine _
  | ParallelLines _ _, ParallelLines _ _
  | PerpendicularLines _ _, PerpendicularLines _ _ => true
  | _, _ => false
  end.

(** set_desired_angle (angle_between_points.rs:69-71), set_desired_distance
    (euclidian: 58-60, horizontal / vertical: 59-61), set_desired_pos (fix_point.rs:42-44) *)
Definition con_with_params (c : con F) (x y : F) : con F :=
  match c with
  | AngleBetweenPoints p1 p2 pm _ => AngleBetweenPoints p1 p2 pm x
  | EuclideanDistance p1 p2 _ => EuclideanDistance p1 p2 x
  | HorizontalDistance p1 p2 _ => HorizontalDistance p1 p2 x
  | VerticalDistance p1 p2 _ => VerticalDistance p1 p2 x
  | FixPoint p _ _ => FixPoint p x y
  | _ => c
  end.

Definition state := (heap F * sketch)%type.
Definition init : state := (heap0, sketch_new).

Definition of_res {T} (f : T -> ret) (r : res T) : ret :=
  match r with ROk x => f x | RErr e => RetErr e end.
(** run a heap computation, keep the sketch *)
Definition on_heap {T} (m : M F T) (f : T -> ret) (st : state) : state * ret :=
  match m (fst st) with
  | (h', Val x) => ((h', snd st), f x)
  | (h', Panic) => ((h', snd st), RetPanic)
  end.

Definition step (st : state) (o : op) : state * ret :=
  let (h, s) := st in
  match o with
  | NewPoint x y => let (h', l) := allocP h (Point2_new x y) in ((h', s), RetLoc l)
  | NewLine a b => let (h', l) := allocL h (mkLine a b) in ((h', s), RetLoc l)
  | NewArc c r cw sa ea => let (h', l) := allocA h (Arc_new c r cw sa ea) in ((h', s), RetLoc l)
  | NewCircle c r => let (h', l) := allocC h (Circle_new c r) in ((h', s), RetLoc l)
  | NewCon c =>
      if con_new_ok c then let (h', l) := allocK h c in ((h', s), RetLoc l) else (st, RetPanic)
  | AddPrimitive c => let (s', r) := add_primitive h s c in ((h, s'), of_res RetId r)
  | AddPoint2 x y => let '(h', s', r) := add_point2 h s x y in ((h', s'), of_res RetLoc r)
  | AddLine a b => let '(h', s', r) := add_line h s a b in ((h', s'), of_res RetLoc r)
  | AddArc c r cw sa ea =>
      let '(h', s', r) := add_arc h s c r cw sa ea in ((h', s'), of_res RetLoc r)
  | AddConstraint k => let (s', r) := add_constraint h s k in ((h, s'), of_res (fun _ => RetOk) r)
  | Constrain c =>
      match constrain h s c with
      | (h', s', Val r) => ((h', s'), of_res RetLoc r)
      | (h', s', Panic) => ((h', s'), RetPanic)
      end
  | DeletePrimitive id => let (s', r) := delete_primitive s id in ((h, s'), of_res (fun _ => RetOk) r)
  | DeleteConstraint k => let (s', r) := delete_constraint s k in ((h, s'), of_res (fun _ => RetOk) r)
  | SetData v => on_heap (set_data s v) (fun _ => RetOk) st
  | GetGradient => on_heap (get_gradient s) RetVec st
  | GetJacobian => on_heap (get_jacobian s) RetMat st
  | Solve sol => on_heap (solve pinv sol s) RetSolve st
  | CheckGradients eps k ce => on_heap (check_gradients s eps k ce) (fun _ => RetOk) st
  | PointSetX l x => on_heap (Point2_set_x l x) (fun _ => RetOk) st
  | PointSetY l y => on_heap (Point2_set_y l y) (fun _ => RetOk) st
  | PointAddGrad l gx gy => on_heap (Point2_add_to_gradient l [gx; gy]) (fun _ => RetOk) st
  | PointPut l p => ((setP h l p, s), RetOk)
  | LineSetStart l a => ((Line_set_start l a h, s), RetOk)
  | LineSetEnd l a => ((Line_set_end l a h, s), RetOk)
  | ArcSetCenter l c => ((Arc_set_center l c h, s), RetOk)
  | ArcPut l r sa ea gr gsa gea cw =>
      ((setA h l (mkArc (a_center (getA h l)) r sa ea gr gsa gea cw), s), RetOk)
  | CircleSetCenter l c => ((Circle_set_center l c h, s), RetOk)
  | CirclePut l r g => ((setC h l (mkCircle (c_center (getC h l)) r g), s), RetOk)
  | ConSetParams k x y => ((setK h k (con_with_params (getK h k) x y), s), RetOk)
  | ConPut k c => if same_kind (getK h k) c then ((setK h k c, s), RetOk) else (st, RetPanic)
  | PrimSetData c v => on_heap (prim_set_data c v) (fun _ => RetOk) st
  | PrimZero c => ((prim_zero h c, s), RetOk)
  | UpdateGradient k => on_heap (update_gradient (getK h k)) (fun _ => RetOk) st
  end.

(** ** Validity of handles: what safe Rust guarantees *)
Definition cell_ok (h : heap F) (c : pcell) : Prop :=
  match c with
  | PPoint l => l < length (h_pts h)
  | PLine l => l < length (h_lines h)
  | PArc l => l < length (h_arcs h)
  | PCircle l => l < length (h_circs h)
  end.
Definition con_ok (h : heap F) (c : con F) : Prop := Forall (cell_ok h) (con_refs c).
Definition heap_ok (h : heap F) : Prop :=
  (forall l, l < length (h_lines h) -> Forall (cell_ok h) (prim_refs h (PLine l))) /\
  (forall l, l < length (h_arcs h) -> Forall (cell_ok h) (prim_refs h (PArc l))) /\
  (forall l, l < length (h_circs h) -> Forall (cell_ok h) (prim_refs h (PCircle l))) /\
  (forall k, k < length (h_cons h) -> con_ok h (getK h k)).

(** The handles passed to a call exist. *)
Definition op_ok (h : heap F) (o : op) : Prop :=
  match o with
  | NewLine a b | AddLine a b => cell_ok h (PPoint a) /\ cell_ok h (PPoint b)
  | NewArc c _ _ _ _ | AddArc c _ _ _ _ | NewCircle c _ => cell_ok h (PPoint c)
  | NewCon c | Constrain c => con_ok h c
  | AddPrimitive c | PrimSetData c _ | PrimZero c => cell_ok h c
  | AddConstraint k | DeleteConstraint k | UpdateGradient k | CheckGradients _ k _ =>
      k < length (h_cons h)
  | PointSetX l _ | PointSetY l _ | PointAddGrad l _ _ | PointPut l _ => cell_ok h (PPoint l)
  | LineSetStart l a | LineSetEnd l a => cell_ok h (PLine l) /\ cell_ok h (PPoint a)
  | ArcSetCenter l c => cell_ok h (PArc l) /\ cell_ok h (PPoint c)
  | CircleSetCenter l c => cell_ok h (PCircle l) /\ cell_ok h (PPoint c)
  | ArcPut l _ _ _ _ _ _ _ => cell_ok h (PArc l)
  | CirclePut l _ _ => cell_ok h (PCircle l)
  | ConSetParams k _ _ => k < length (h_cons h)
  | ConPut k c => k < length (h_cons h) /\ con_ok h c
  | _ => True
  end.

(** [run st os rs st']: the calls [os] with results [rs] lead from [st] to [st']. *)
Inductive run : state -> list op -> list ret -> state -> Prop :=
| run_nil st : run st [] [] st
| run_cons st o st1 r os rs st' :
    op_ok (fst st) o -> step st o = (st1, r) -> run st1 os rs st' ->
    run st (o :: os) (r :: rs) st'.

Definition reachable (st : state) : Prop := exists os rs, run init os rs st.

End Api.
Arguments op : clear implicits.
Arguments ret : clear implicits.
Arguments state : clear implicits.
