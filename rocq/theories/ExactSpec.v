(** * Exact geometry: what the losses mean over the real numbers

    Independent of the program model except for the shape of constraints and the
    reference structure of lines and arcs. *)
From Coq Require Import Reals List.
From Verif Require Import Arith Vec Prim Cons Sketch Spec ArithR.
Import ListNotations.
Local Open Scope R_scope.

(** real coordinates of points and real parameters of arcs *)
Record cfg := mkCfg { cx : loc -> R; cy : loc -> R; cr : loc -> R; csa : loc -> R; cea : loc -> R }.

Definition vx (a : xR) : R := match a with Fin r => r | _ => 0 end.
Definition cfg_of (h : heap xR) : cfg :=
  mkCfg (fun l => vx (p_x (getP h l))) (fun l => vx (p_y (getP h l)))
        (fun l => vx (a_radius (getA h l))) (fun l => vx (a_sa (getA h l))) (fun l => vx (a_ea (getA h l))).

Definition len (v : R * R) : R := sqrt (fst v * fst v + snd v * snd v).
Definition dotR (u v : R * R) : R := fst u * fst v + snd u * snd v.
Definition crossR (u v : R * R) : R := fst u * snd v - snd u * fst v.
Definition sq (x : R) : R := x * x.

(** vector from point q to point p *)
Definition from_to (g : cfg) (q p : loc) : R * R := (cx g p - cx g q, cy g p - cy g q).
(** direction of line l *)
Definition dirR (g : cfg) (h : heap xR) (l : loc) : R * R :=
  from_to g (l_start (getL h l)) (l_end (getL h l)).
(** unsigned angle at pm between the rays to p1 and p2 *)
Definition angleR (g : cfg) (p1 p2 pm : loc) : R :=
  let u := from_to g pm p1 in let v := from_to g pm p2 in acos (dotR u v / (len u * len v)).
Definition tiny : R := / 1000000.
Definition start_pt (g : cfg) (h : heap xR) (a : loc) : R * R :=
  let c := a_center (getA h a) in
  (cx g c + cr g a * cos (csa g a), cy g c + cr g a * sin (csa g a)).
Definition end_pt (g : cfg) (h : heap xR) (a : loc) : R * R :=
  let c := a_center (getA h a) in
  (cx g c + cr g a * cos (cea g a), cy g c + cr g a * sin (cea g a)).

(** half the squared residual of each constraint *)
Definition residual2 (g : cfg) (h : heap xR) (c : con xR) : R :=
  match c with
  | AngleBetweenPoints p1 p2 pm d =>
      if Rlt_dec (len (from_to g pm p1)) tiny then sq (vx d)
      else if Rlt_dec (len (from_to g pm p2)) tiny then sq (vx d)
      else sq (angleR g p1 p2 pm - vx d)
  | ArcEndPointCoincident a p => sq (fst (end_pt g h a) - cx g p) + sq (snd (end_pt g h a) - cy g p)
  | ArcStartPointCoincident a p => sq (fst (start_pt g h a) - cx g p) + sq (snd (start_pt g h a) - cy g p)
  | EuclideanDistance p1 p2 d => sq (len (from_to g p2 p1) - vx d)
  | HorizontalDistance p1 p2 d => sq (cx g p2 - cx g p1 - vx d)
  | VerticalDistance p1 p2 d => sq (cy g p2 - cy g p1 - vx d)
  | FixPoint p x y => sq (cx g p - vx x) + sq (cy g p - vx y)
  | EqualLength l1 l2 => sq (len (dirR g h l1) - len (dirR g h l2))
  | HorizontalLine l => sq (snd (dirR g h l))
  | VerticalLine l => sq (fst (dirR g h l))
  | ParallelLines l1 l2 =>
      if Req_EM_T (len (dirR g h l1)) 0 then 0
      else if Req_EM_T (len (dirR g h l2)) 0 then 0
      else sq (crossR (dirR g h l1) (dirR g h l2) / (len (dirR g h l1) * len (dirR g h l2)))
  | PerpendicularLines l1 l2 =>
      if Req_EM_T (len (dirR g h l1)) 0 then 0
      else if Req_EM_T (len (dirR g h l2)) 0 then 0
      else sq (dotR (dirR g h l1) (dirR g h l2) / (len (dirR g h l1) * len (dirR g h l2)))
  end.
Definition lossR (g : cfg) (h : heap xR) (c : con xR) : R := residual2 g h c / 2.

(** the geometric relation a constraint asks for *)
Definition satisfied (g : cfg) (h : heap xR) (c : con xR) : Prop :=
  match c with
  | AngleBetweenPoints p1 p2 pm d =>
      if Rlt_dec (len (from_to g pm p1)) tiny then vx d = 0
      else if Rlt_dec (len (from_to g pm p2)) tiny then vx d = 0
      else angleR g p1 p2 pm = vx d
  | ArcEndPointCoincident a p => end_pt g h a = (cx g p, cy g p)
  | ArcStartPointCoincident a p => start_pt g h a = (cx g p, cy g p)
  | EuclideanDistance p1 p2 d => len (from_to g p2 p1) = vx d
  | HorizontalDistance p1 p2 d => cx g p2 - cx g p1 = vx d
  | VerticalDistance p1 p2 d => cy g p2 - cy g p1 = vx d
  | FixPoint p x y => cx g p = vx x /\ cy g p = vx y
  | EqualLength l1 l2 => len (dirR g h l1) = len (dirR g h l2)
  | HorizontalLine l => cy g (l_start (getL h l)) = cy g (l_end (getL h l))
  | VerticalLine l => cx g (l_start (getL h l)) = cx g (l_end (getL h l))
  | ParallelLines l1 l2 => crossR (dirR g h l1) (dirR g h l2) = 0
  | PerpendicularLines l1 l2 => dotR (dirR g h l1) (dirR g h l2) = 0
  end.

(** where a constraint is differentiable and the code computes a gradient *)
Definition nondegenerate (g : cfg) (h : heap xR) (c : con xR) : Prop :=
  match c with
  | AngleBetweenPoints p1 p2 pm _ =>
      tiny < len (from_to g pm p1) /\ tiny < len (from_to g pm p2) /\
      crossR (from_to g pm p1) (from_to g pm p2) <> 0
  | EuclideanDistance p1 p2 _ => tiny <= len (from_to g p2 p1)
  | EqualLength l1 l2 | ParallelLines l1 l2 | PerpendicularLines l1 l2 =>
      dirR g h l1 <> (0, 0) /\ dirR g h l2 <> (0, 0)
  | _ => True
  end.

(** the cells a constraint reads: its references and their references *)
Definition deps {F} {A : Arith F} (h : heap F) (c : con F) : list pcell :=
  flat_map (fun r => r :: prim_refs h r) (con_refs c).
(** everything a constraint reads is a finite number *)
Definition con_finite (h : heap xR) (c : con xR) : Prop :=
  con_new_ok c = true /\ forall d, In d (deps h c) -> all_finite (prim_data h d) = true.
Definition all_con_finite (h : heap xR) (s : sketch) : Prop :=
  forall k, In k (s_cons s) -> con_finite h (getK h k).

(** real vectors *)
Definition sumR (l : list R) : R := fold_right Rplus 0 l.
Definition dotL (u v : list R) : R := sumR (map2 Rmult u v).
(** the sketch after set_data (x + t d), where x is its current data vector *)
Definition moved (h : heap xR) (s : sketch) (d : list R) (t : R) : heap xR :=
  fst (set_data s (map Fin (map2 (fun x y => x + t * y) (map vx (get_data h s)) d)) h).

(** configurations in which the gradient of an unsatisfied constraint vanishes *)
Definition stuck (g : cfg) (h : heap xR) (c : con xR) : Prop :=
  match c with
  | AngleBetweenPoints p1 p2 pm _ =>
      len (from_to g pm p1) < tiny \/ len (from_to g pm p2) < tiny \/
      crossR (from_to g pm p1) (from_to g pm p2) = 0
  | EuclideanDistance p1 p2 _ => len (from_to g p2 p1) < tiny
  | HorizontalDistance p1 p2 _ | VerticalDistance p1 p2 _ => p1 = p2
  | ParallelLines l1 l2 => dotR (dirR g h l1) (dirR g h l2) = 0
  | PerpendicularLines l1 l2 => crossR (dirR g h l1) (dirR g h l2) = 0
  | _ => False
  end.
(** an equal-length constraint on a line of length zero *)
Definition zero_length (g : cfg) (h : heap xR) (c : con xR) : Prop :=
  exists l1 l2, c = EqualLength l1 l2 /\ (dirR g h l1 = (0, 0) \/ dirR g h l2 = (0, 0)).

(** h' is h rotated by phi about the origin and then translated by (tx, ty) *)
Definition rigid (phi tx ty : R) (W : pcell -> Prop) (h h' : heap xR) : Prop :=
  same_structure h h' /\
  (forall l x y, W (PPoint l) -> prim_data h (PPoint l) = [Fin x; Fin y] ->
     prim_data h' (PPoint l) = [Fin (x * cos phi - y * sin phi + tx); Fin (x * sin phi + y * cos phi + ty)]) /\
  (forall a r sa ea, W (PArc a) -> prim_data h (PArc a) = [Fin r; Fin sa; Fin ea] ->
     prim_data h' (PArc a) = [Fin r; Fin (sa + phi); Fin (ea + phi)]).
Definition rotation_invariant (c : con xR) : bool :=
  match c with
  | HorizontalDistance _ _ _ | VerticalDistance _ _ _ | FixPoint _ _ _ | HorizontalLine _ | VerticalLine _ => false
  | _ => true
  end.
Definition translation_invariant (c : con xR) : bool :=
  match c with FixPoint _ _ _ => false | _ => true end.
