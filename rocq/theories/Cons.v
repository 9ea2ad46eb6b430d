(** * Constraints  (src/constraints)

    [loss_value] and [update_gradient] of the twelve constraint kinds.  Every
    [update_gradient] in the code first reads data only and then performs one to three
    [add_to_gradient] calls whose arguments were computed from those reads; [grad_rows]
    computes the (target, row) list and [update_gradient] executes it in order. *)
From Coq Require Import List ZArith Arith Bool.
From Verif Require Import Arith Vec Prim.
Import ListNotations.

(** Target of one add_to_gradient call. *)
Inductive gtarget := GPoint (l : loc) | GLine (l : loc) | GArc (l : loc).

Section Cons.
Context {F : Type} {A : Arith F}.

(** nalgebra Vector2 operations *)
Definition v2 := (F * F)%type.
Definition v2sub (a b : v2) : v2 := (fst a -f fst b, snd a -f snd b).
Definition v2dot (a b : v2) : F := fst a *f fst b +f snd a *f snd b.
Definition v2norm2 (a : v2) : F := v2dot a a.
Definition v2norm (a : v2) : F := fsqrt (v2norm2 a).
Definition v2normalize (a : v2) : v2 := (fst a /f v2norm a, snd a /f v2norm a).
Definition v2row (a : v2) : vec F := [fst a; snd a].            (* transpose *)
Definition v2finite (a : v2) : bool := ffin (fst a) && ffin (snd a).

Definition lit_1em6 : F := flit 1 6.                            (* 1e-6 *)

Definition pdata (h : heap F) (l : loc) : v2 := p_data (getP h l).
Definition line_start (h : heap F) (l : loc) : v2 := pdata h (l_start (getL h l)).
Definition line_end (h : heap F) (l : loc) : v2 := pdata h (l_end (getL h l)).

(** ConstraintLike::references of each kind (first method of each impl block):
    angle_between_points.rs:98-104, arc_{end,start}_point_coincident.rs:46-51,
    {euclidian,horizontal,vertical}_distance_between_points.rs:72-77, fix_point.rs:48-50,
    equal_length.rs:45-50, {horizontal,vertical}_line.rs:37-39,
    {parallel,perpendicular}_lines.rs:46-51 *)
Definition con_refs (c : con F) : list pcell :=
  match c with
  | AngleBetweenPoints p1 p2 pm _ => [PPoint p1; PPoint p2; PPoint pm]
  | ArcEndPointCoincident a p | ArcStartPointCoincident a p => [PArc a; PPoint p]
  | EuclideanDistance p1 p2 _ | HorizontalDistance p1 p2 _ | VerticalDistance p1 p2 _ =>
      [PPoint p1; PPoint p2]
  | FixPoint p _ _ => [PPoint p]
  | HorizontalLine l | VerticalLine l => [PLine l]
  | EqualLength l1 l2 | ParallelLines l1 l2 | PerpendicularLines l1 l2 => [PLine l1; PLine l2]
  end.

(** angle_between_points.rs:73-94 *)
Definition current_angle (h : heap F) (p1 p2 pm : loc) : F :=
  let d1 := v2sub (pdata h p1) (pdata h pm) in
  let d2 := v2sub (pdata h p2) (pdata h pm) in
  let dot_product := v2dot d1 d2 in
  let norm1 := v2norm d1 in
  let norm2 := v2norm d2 in
  if flt (fabs norm1) lit_1em6 || flt (fabs norm2) lit_1em6 then f0
  else
    let cos_theta := dot_product /f (norm1 *f norm2) in
    if negb (ffin cos_theta) then f0
    else facos (fclamp fm1 f1 cos_theta).

(** euclidian_distance_between_points.rs:62-68 *)
Definition current_distance (h : heap F) (p1 p2 : loc) : F :=
  v2norm (v2sub (pdata h p1) (pdata h p2)).
(** horizontal_distance_between_points.rs:63-68 *)
Definition current_hdistance (h : heap F) (p1 p2 : loc) : F :=
  fst (pdata h p2) -f fst (pdata h p1).
(** vertical_distance_between_points.rs:63-68 *)
Definition current_vdistance (h : heap F) (p1 p2 : loc) : F :=
  snd (pdata h p2) -f snd (pdata h p1).

Definition half_sq (err : F) : F := fhalf *f err *f err.         (* 0.5 * err * err *)

Definition loss_value (h : heap F) (c : con F) : F :=
  match c with
  | AngleBetweenPoints p1 p2 pm desired =>                        (* 106-110 *)
      let theta := current_angle h p1 p2 pm in
      fhalf *f (theta -f desired) *f (theta -f desired)
  | ArcEndPointCoincident a p =>                                  (* 53-59 *)
      let e := arc_end_point h (getA h a) in
      let q := pdata h p in
      let dx := fst e -f fst q in let dy := snd e -f snd q in
      fhalf *f (dx *f dx +f dy *f dy)
  | ArcStartPointCoincident a p =>                                (* 53-59 *)
      let e := arc_start_point h (getA h a) in
      let q := pdata h p in
      let dx := fst e -f fst q in let dy := snd e -f snd q in
      fhalf *f (dx *f dx +f dy *f dy)
  | EuclideanDistance p1 p2 desired =>                            (* 79-83 *)
      half_sq (current_distance h p1 p2 -f desired)
  | HorizontalDistance p1 p2 desired =>                           (* 79-83 *)
      half_sq (current_hdistance h p1 p2 -f desired)
  | VerticalDistance p1 p2 desired =>                             (* 79-83 *)
      half_sq (current_vdistance h p1 p2 -f desired)
  | FixPoint p x y =>                                             (* 52-56 *)
      fhalf *f v2norm2 (v2sub (pdata h p) (x, y))
  | EqualLength l1 l2 =>                                          (* 52-63 *)
      let d1 := v2sub (line_end h l1) (line_start h l1) in
      let d2 := v2sub (line_end h l2) (line_start h l2) in
      half_sq (v2norm d1 -f v2norm d2)
  | HorizontalLine l =>                                           (* 41-46 *)
      half_sq (snd (line_end h l) -f snd (line_start h l))
  | VerticalLine l =>                                             (* 41-46 *)
      half_sq (fst (line_end h l) -f fst (line_start h l))
  | ParallelLines l1 l2 =>                                        (* 53-68 *)
      let dir1 := v2normalize (v2sub (line_end h l1) (line_start h l1)) in
      let dir2 := v2normalize (v2sub (line_end h l2) (line_start h l2)) in
      if negb (v2finite dir1 && v2finite dir2) then f0
      else half_sq (fst dir1 *f snd dir2 -f snd dir1 *f fst dir2)
  | PerpendicularLines l1 l2 =>                                   (* 53-68 *)
      let dir1 := v2normalize (v2sub (line_end h l1) (line_start h l1)) in
      let dir2 := v2normalize (v2sub (line_end h l2) (line_start h l2)) in
      if negb (v2finite dir1 && v2finite dir2) then f0
      else half_sq (v2dot dir1 dir2)
  end.

(** d * d^T / |d|^2, then (I - that) / |d|: parallel_lines.rs:96-99, perpendicular_lines.rs:94-97 *)
Definition normalize_gradient (d : v2) : mat F :=
  let n2 := v2norm2 d in let n := v2norm d in
  [[(f1 -f fst d *f fst d /f n2) /f n; (f0 -f fst d *f snd d /f n2) /f n];
   [(f0 -f snd d *f fst d /f n2) /f n; (f1 -f snd d *f snd d /f n2) /f n]].

(** grad_end - grad_start *)
Definition end_minus_start : mat F := map2 vsub end_gradient start_gradient.

(** The add_to_gradient calls of update_gradient, in order. *)
Definition grad_rows (h : heap F) (c : con F) : list (gtarget * vec F) :=
  match c with
  | AngleBetweenPoints p1 p2 pm desired =>                        (* 112-174 *)
      let d1 := v2sub (pdata h p1) (pdata h pm) in
      let d2 := v2sub (pdata h p2) (pdata h pm) in
      let dot_product := v2dot d1 d2 in
      let norm1 := v2norm d1 in
      let norm2 := v2norm d2 in
      if flt (fabs norm1) lit_1em6 || flt (fabs norm2) lit_1em6 then []
      else
      let cos_theta := dot_product /f (norm1 *f norm2) in
      let theta := facos (fclamp fm1 f1 cos_theta) in
      if negb (ffin theta) then []
      else
      let g_cos_dot := f1 /f (norm1 *f norm2) in
      let g_cos_n1 := fneg dot_product /f (norm1 *f norm1 *f norm2) in
      let g_cos_n2 := fneg dot_product /f (norm1 *f norm2 *f norm2) in
      let g_theta := fneg f1 /f fsqrt (fmax (f1 -f cos_theta *f cos_theta) f0) in
      if negb (ffin g_theta) then []
      else
      let g_loss := theta -f desired in
      let from_d1 :=
        vadd (vscale (g_loss *f g_theta *f g_cos_dot) (v2row d2))
             (vscale (g_loss *f g_theta *f g_cos_n1) (vdivs (v2row d1) norm1)) in
      let from_d2 :=
        vadd (vscale (g_loss *f g_theta *f g_cos_dot) (v2row d1))
             (vscale (g_loss *f g_theta *f g_cos_n2) (vdivs (v2row d2) norm2)) in
      [(GPoint p1, rowmul 2 from_d1 point_gradient);
       (GPoint p2, rowmul 2 from_d2 point_gradient);
       (GPoint pm, vsub (rowmul 2 (vneg from_d1) point_gradient)
                        (rowmul 2 from_d2 point_gradient))]
  | ArcEndPointCoincident a p =>                                  (* 61-78 *)
      let e := arc_end_point h (getA h a) in
      let q := pdata h p in
      let g := [fst e -f fst q; snd e -f snd q] in
      [(GArc a, rowmul 5 g (arc_end_point_gradient (getA h a)));
       (GPoint p, rowmul 2 (vneg g) point_gradient)]
  | ArcStartPointCoincident a p =>                                (* 61-78 *)
      let e := arc_start_point h (getA h a) in
      let q := pdata h p in
      let g := [fst e -f fst q; snd e -f snd q] in
      [(GArc a, rowmul 5 g (arc_start_point_gradient (getA h a)));
       (GPoint p, rowmul 2 (vneg g) point_gradient)]
  | EuclideanDistance p1 p2 desired =>                            (* 85-116 *)
      let d := v2sub (pdata h p1) (pdata h p2) in
      let distance := v2norm d in
      let err := distance -f desired in
      if flt distance lit_1em6 then []
      else
      let from_d := vscale (err *f f1) (vdivs (v2row d) distance) in
      [(GPoint p1, rowmul 2 from_d point_gradient);
       (GPoint p2, rowmul 2 (vneg from_d) point_gradient)]
  | HorizontalDistance p1 p2 desired =>                           (* 85-113 *)
      let d := v2sub (pdata h p2) (pdata h p1) in
      let err := fst d -f desired in
      let from_d := vscale (err *f f1) [f1; f0] in
      [(GPoint p1, rowmul 2 (vneg from_d) point_gradient);
       (GPoint p2, rowmul 2 from_d point_gradient)]
  | VerticalDistance p1 p2 desired =>                             (* 85-113 *)
      let d := v2sub (pdata h p2) (pdata h p1) in
      let err := snd d -f desired in
      let from_d := vscale (err *f f1) [f0; f1] in
      [(GPoint p1, rowmul 2 (vneg from_d) point_gradient);
       (GPoint p2, rowmul 2 from_d point_gradient)]
  | FixPoint p x y =>                                             (* 58-64 *)
      [(GPoint p, v2row (v2sub (pdata h p) (x, y)))]
  | EqualLength l1 l2 =>                                          (* 65-93 *)
      let d1 := v2sub (line_end h l1) (line_start h l1) in
      let d2 := v2sub (line_end h l2) (line_start h l2) in
      let difference := v2norm d1 -f v2norm d2 in
      let g1 := vdivs (v2row d1) (v2norm d1) in
      let g2 := vdivs (vneg (v2row d2)) (v2norm d2) in
      [(GLine l1, rowmul 4 (vscale difference g1) end_minus_start);
       (GLine l2, rowmul 4 (vscale difference g2) end_minus_start)]
  | HorizontalLine l =>                                           (* 48-64 *)
      let dy := snd (line_end h l) -f snd (line_start h l) in
      let g := [f0; dy] in
      [(GLine l, rowmul 4 (vneg g) start_gradient); (GLine l, rowmul 4 g end_gradient)]
  | VerticalLine l =>                                             (* 48-64 *)
      let dx := fst (line_end h l) -f fst (line_start h l) in
      let g := [dx; f0] in
      [(GLine l, rowmul 4 (vneg g) start_gradient); (GLine l, rowmul 4 g end_gradient)]
  | ParallelLines l1 l2 =>                                        (* 70-121 *)
      let dir1 := v2sub (line_end h l1) (line_start h l1) in
      let dir1n := v2normalize dir1 in
      let dir2 := v2sub (line_end h l2) (line_start h l2) in
      let dir2n := v2normalize dir2 in
      if negb (v2finite dir1n && v2finite dir2n) then []
      else
      let cross := fst dir1n *f snd dir2n -f snd dir1n *f fst dir2n in
      let g1 := [snd dir2n; fneg (fst dir2n)] in
      let g2 := [fneg (snd dir1n); fst dir1n] in
      [(GLine l1, rowmul 4 (rowmul 2 (vscale cross g1) (normalize_gradient dir1)) end_minus_start);
       (GLine l2, rowmul 4 (rowmul 2 (vscale cross g2) (normalize_gradient dir2)) end_minus_start)]
  | PerpendicularLines l1 l2 =>                                   (* 70-119 *)
      let dir1 := v2sub (line_end h l1) (line_start h l1) in
      let dir1n := v2normalize dir1 in
      let dir2 := v2sub (line_end h l2) (line_start h l2) in
      let dir2n := v2normalize dir2 in
      if negb (v2finite dir1n && v2finite dir2n) then []
      else
      let dot := v2dot dir1n dir2n in
      [(GLine l1, rowmul 4 (rowmul 2 (vscale dot (v2row dir2n)) (normalize_gradient dir1)) end_minus_start);
       (GLine l2, rowmul 4 (rowmul 2 (vscale dot (v2row dir1n)) (normalize_gradient dir2)) end_minus_start)]
  end.

Definition add_to_gradient (t : gtarget) (g : vec F) : M F unit :=
  match t with
  | GPoint l => Point2_add_to_gradient l g
  | GLine l => Line_add_to_gradient l g
  | GArc l => Arc_add_to_gradient l g
  end.

(** ConstraintLike::update_gradient *)
Definition update_gradient (c : con F) : M F unit :=
  fun h => mfor (grad_rows h c) (fun tr => add_to_gradient (fst tr) (snd tr)) h.

(** Constructors: the [assert!(... is_finite())] in X::new
    (angle_between_points.rs:32, {euclidian,horizontal,vertical}_distance:30-31, fix_point.rs:26);
    the other kinds have no assertion. *)
Definition con_new_ok (c : con F) : bool :=
  match c with
  | AngleBetweenPoints _ _ _ d => ffin d
  | EuclideanDistance _ _ d | HorizontalDistance _ _ d | VerticalDistance _ _ d => ffin d
  | FixPoint _ x y => ffin x && ffin y
  | _ => true
  end.

End Cons.
