(** * Vocabulary of C68: a binary64 sketch read as real numbers *)
From Coq Require Import List ZArith NArith Arith Bool Reals Floats.SpecFloat.
From Verif Require Import Arith Vec Prim Cons Sketch Decomp Spec ArithR ArithF DecompSpec ExactDecomp.
Import ListNotations.
Local Open Scope R_scope.

(** the real number a finite binary64 number stands for *)
Definition value (x : spec_float) : R :=
  match x with S754_finite s m e => IZR (if s then Zneg m else Zpos m) * powerRZ 2 e | _ => 0 end.
Definition exact64 (x : spec_float) : xR :=
  match x with
  | S754_nan => NaN
  | S754_infinity s => if s then NInf else PInf
  | _ => Fin (value x)
  end.
(** the same sketch in exact arithmetic *)
Definition exact_point (p : point spec_float) : point xR :=
  mkPoint (exact64 (p_x p)) (exact64 (p_y p)) (exact64 (p_gx p)) (exact64 (p_gy p)).
Definition exact_arc (a : arc spec_float) : arc xR :=
  mkArc (a_center a) (exact64 (a_radius a)) (exact64 (a_sa a)) (exact64 (a_ea a))
        (exact64 (a_gr a)) (exact64 (a_gsa a)) (exact64 (a_gea a)) (a_cw a).
Definition exact_circle (c : circle spec_float) : circle xR :=
  mkCircle (c_center c) (exact64 (c_radius c)) (exact64 (c_gr c)).
Definition exact_con (c : con spec_float) : con xR :=
  match c with
  | AngleBetweenPoints p1 p2 pm d => AngleBetweenPoints p1 p2 pm (exact64 d)
  | ArcEndPointCoincident a p => ArcEndPointCoincident a p
  | ArcStartPointCoincident a p => ArcStartPointCoincident a p
  | EuclideanDistance p1 p2 d => EuclideanDistance p1 p2 (exact64 d)
  | HorizontalDistance p1 p2 d => HorizontalDistance p1 p2 (exact64 d)
  | VerticalDistance p1 p2 d => VerticalDistance p1 p2 (exact64 d)
  | FixPoint p x y => FixPoint p (exact64 x) (exact64 y)
  | EqualLength l1 l2 => EqualLength l1 l2
  | HorizontalLine l => HorizontalLine l
  | VerticalLine l => VerticalLine l
  | ParallelLines l1 l2 => ParallelLines l1 l2
  | PerpendicularLines l1 l2 => PerpendicularLines l1 l2
  end.
Definition exact_heap (h : heap spec_float) : heap xR :=
  mkHeap (map exact_point (h_pts h)) (h_lines h) (map exact_arc (h_arcs h)) (map exact_circle (h_circs h)) (map exact_con (h_cons h)).
Definition exact_seg (g : seg spec_float) : seg xR :=
  match g with SLine l => SLine l | SArc a => SArc (exact_arc a) end.
Definition exact_ring (r : ring spec_float) : ring xR :=
  match r with RCircle c => RCircle (exact_circle c) | RSegments l => RSegments (map exact_seg l) end.

(** a finite binary64 number *)
Definition finite64 (x : spec_float) : Prop := valid_binary 53 1024 x = true /\ fin64 x = true.
(** what is assumed of the platform's [atan2]: an angle in [-pi, pi] that is off by at most 2^-50, up to whole
    turns (atan2(-0, -1) is -pi) *)
Definition accurate_atan2 (L : libm) : Prop := forall y x, finite64 y -> finite64 x -> value y <> 0 \/ value x <> 0 ->
  let r := lm_atan2 L y x in
  finite64 r /\ Rabs (value r) <= value pi64 /\ exists k, Rabs (value r - atan2R (value y) (value x) + 2 * PI * IZR k) <= / 2 ^ 50.

(** Lines and circles only; all numbers are finite; the coordinates are at most [M] in absolute value; radii are
    zero or between 2^-400 and 2^400. *)
Definition tame (L : libm) (M : R) (h : heap spec_float) (s : sketch) : Prop := let A := ArithF L in
  (forall a, ~ registered s (PArc a)) /\
  (forall l p, registered s (PLine l) -> p = l_start (getL h l) \/ p = l_end (getL h l) ->
     let pt := getP h p in finite64 (p_x pt) /\ finite64 (p_y pt) /\ finite64 (p_gx pt) /\ finite64 (p_gy pt) /\
     Rabs (value (p_x pt)) <= M /\ Rabs (value (p_y pt)) <= M) /\
  (forall c, registered s (PCircle c) -> let r := c_radius (getC h c) in finite64 r /\
     (value r = 0 \/ / 2 ^ 400 <= Rabs (value r) <= 2 ^ 400)).
(** any two of the directed lines that leave a point differ in direction by more than 2^-46, about 1.4e-14 *)
Definition directions_apart (h : heap xR) (s : sketch) : Prop := forall i j a b, i <> j ->
  nth_error (directed h s) i = Some a -> nth_error (directed h s) j = Some b -> from_pt h a = from_pt h b ->
  forall k, / 2 ^ 46 < Rabs (direction h a - direction h b + 2 * PI * IZR k).
(** a walk of n lines encloses an area of more than (n + 4)^2 M^2 2^-52 *)
Definition areas_clear (M : R) (h : heap xR) (s : sketch) : Prop := forall ws w,
  all_walks h (directed h s) (length (directed h s)) ws -> In w ws ->
  (INR (length w) + 4) ^ 2 * M ^ 2 / 2 ^ 52 < Rabs (shoelace h (at_positions (directed h s) w)).
