(** * Mirroring a sketch

    [sx] ([sy]) says whether the x (y) coordinates change their sign: with [sx] alone the drawing is mirrored in the
    y axis, with [sy] alone in the x axis, with both it is turned by half a turn, with neither only signs of zeros differ. *)
From Coq Require Import List ZArith Bool Floats.SpecFloat.
From Verif Require Import Arith Vec Prim Cons Sketch Solve ArithF.
Import ListNotations.

(** the same number; the sign of a zero is not looked at *)
Definition is_zero (x : spec_float) : Prop := exists s, x = S754_zero s.
Definition same_number (x y : spec_float) : Prop := x = y \/ is_zero x /\ is_zero y.
(** [y] is [x], or its negative if [s] *)
Definition signed (s : bool) (x y : spec_float) : Prop := same_number (if s then SFopp x else x) y.

Section Mirror.
Context {F : Type}.
Variable R : bool -> F -> F -> Prop.
Variables sx sy : bool.

Inductive mir_point : point F -> point F -> Prop := MirPoint x y gx gy x' y' gx' gy' :
  R sx x x' -> R sy y y' -> R sx gx gx' -> R sy gy gy' -> mir_point (mkPoint x y gx gy) (mkPoint x' y' gx' gy').
(** angles change their sign with y; the sense of rotation, which no computation reads, is free *)
Inductive mir_arc : arc F -> arc F -> Prop := MirArc c r sa ea gr gsa gea cw r' sa' ea' gr' gsa' gea' cw' :
  R false r r' -> R sy sa sa' -> R sy ea ea' -> R false gr gr' -> R sy gsa gsa' -> R sy gea gea' ->
  mir_arc (mkArc c r sa ea gr gsa gea cw) (mkArc c r' sa' ea' gr' gsa' gea' cw').
Inductive mir_circle : circle F -> circle F -> Prop := MirCircle c r g r' g' :
  R false r r' -> R false g g' -> mir_circle (mkCircle c r g) (mkCircle c r' g').
(** signed distances and target coordinates change their sign; a point may be tied to an arc only if x is kept *)
Inductive mir_con : con F -> con F -> Prop :=
| MirAngle a b m d d' : R false d d' -> mir_con (AngleBetweenPoints a b m d) (AngleBetweenPoints a b m d')
| MirArcEnd a p : sx = false -> mir_con (ArcEndPointCoincident a p) (ArcEndPointCoincident a p)
| MirArcStart a p : sx = false -> mir_con (ArcStartPointCoincident a p) (ArcStartPointCoincident a p)
| MirDist a b d d' : R false d d' -> mir_con (EuclideanDistance a b d) (EuclideanDistance a b d')
| MirHDist a b d d' : R sx d d' -> mir_con (HorizontalDistance a b d) (HorizontalDistance a b d')
| MirVDist a b d d' : R sy d d' -> mir_con (VerticalDistance a b d) (VerticalDistance a b d')
| MirFix p x y x' y' : R sx x x' -> R sy y y' -> mir_con (FixPoint p x y) (FixPoint p x' y')
| MirEqual a b : mir_con (EqualLength a b) (EqualLength a b)
| MirHLine l : mir_con (HorizontalLine l) (HorizontalLine l)
| MirVLine l : mir_con (VerticalLine l) (VerticalLine l)
| MirParallel a b : mir_con (ParallelLines a b) (ParallelLines a b)
| MirPerp a b : mir_con (PerpendicularLines a b) (PerpendicularLines a b).

Definition mirrored (h h' : heap F) : Prop :=
  Forall2 mir_point (h_pts h) (h_pts h') /\ h_lines h = h_lines h' /\ Forall2 mir_arc (h_arcs h) (h_arcs h') /\
  Forall2 mir_circle (h_circs h) (h_circs h') /\ Forall2 mir_con (h_cons h) (h_cons h').

(** the signs of the entries of a sketch's parameter vector *)
Definition cell_signs (c : pcell) : list bool :=
  match c with PPoint _ => [sx; sy] | PLine _ => [] | PArc _ => [false; sy; sy] | PCircle _ => [false] end.
Definition signs (s : sketch) : list bool := flat_map cell_signs (cells s).
Inductive mir_vec : list bool -> vec F -> vec F -> Prop :=
| MVnil : mir_vec [] [] []
| MVcons s ss x y u v : R s x y -> mir_vec ss u v -> mir_vec (s :: ss) (x :: u) (y :: v).
(** a matrix whose rows and columns belong to coordinates with the signs [ss] and [cs] *)
Inductive mir_mat (cs : list bool) : list bool -> mat F -> mat F -> Prop :=
| MMnil : mir_mat cs [] [] []
| MMcons a ss r r' m m' : mir_vec (map (xorb a) cs) r r' -> mir_mat cs ss m m' -> mir_mat cs (a :: ss) (r :: m) (r' :: m').
End Mirror.

(** sine is odd, cosine is even, and none of the three functions looks at the sign of a zero beyond that *)
Definition symmetric_libm (L : libm) : Prop :=
  forall s x y, signed s x y ->
    signed s (lm_sin L x) (lm_sin L y) /\ signed false (lm_cos L x) (lm_cos L y) /\
    (s = false -> signed false (lm_acos L x) (lm_acos L y)).

(** changing the sign of coordinates before the pseudo-inverse is taken or after makes no difference *)
Definition symmetric_pinv (pinv : mat spec_float -> spec_float -> pinv_res (mat spec_float)) : Prop :=
  forall ss m m' eps, mir_mat signed ss ss m m' ->
    match pinv m eps, pinv m' eps with
    | PInv q, PInv q' => mir_mat signed ss ss q q' | PErr, PErr => True | PPanic, PPanic => True | _, _ => False
    end.

(** the mirror image of a heap *)
Definition flip (s : bool) (x : spec_float) : spec_float := if s then SFopp x else x.
Definition flip_point (sx sy : bool) (p : point spec_float) : point spec_float :=
  mkPoint (flip sx (p_x p)) (flip sy (p_y p)) (flip sx (p_gx p)) (flip sy (p_gy p)).
Definition flip_arc (sy : bool) (a : arc spec_float) : arc spec_float :=
  mkArc (a_center a) (a_radius a) (flip sy (a_sa a)) (flip sy (a_ea a)) (a_gr a) (flip sy (a_gsa a)) (flip sy (a_gea a)) (xorb sy (a_cw a)).
Definition flip_con (sx sy : bool) (c : con spec_float) : con spec_float :=
  match c with
  | HorizontalDistance a b d => HorizontalDistance a b (flip sx d)
  | VerticalDistance a b d => VerticalDistance a b (flip sy d)
  | FixPoint p x y => FixPoint p (flip sx x) (flip sy y)
  | c => c
  end.
Definition mirror (sx sy : bool) (h : heap spec_float) : heap spec_float :=
  mkHeap (map (flip_point sx sy) (h_pts h)) (h_lines h) (map (flip_arc sy) (h_arcs h)) (h_circs h) (map (flip_con sx sy) (h_cons h)).
Definition no_arc_ties (h : heap spec_float) : Prop :=
  forall c, In c (h_cons h) -> match c with ArcEndPointCoincident _ _ | ArcStartPointCoincident _ _ => False | _ => True end.

(** the drawing with the two axes exchanged *)
Definition swap_con (c : con spec_float) : con spec_float :=
  match c with
  | HorizontalDistance a b d => VerticalDistance a b d
  | VerticalDistance a b d => HorizontalDistance a b d
  | HorizontalLine l => VerticalLine l
  | VerticalLine l => HorizontalLine l
  | FixPoint p x y => FixPoint p y x
  | c => c
  end.
Definition swap (h : heap spec_float) : heap spec_float :=
  mkHeap (map (fun p => mkPoint (p_y p) (p_x p) (p_gy p) (p_gx p)) (h_pts h)) (h_lines h) (h_arcs h) (h_circs h) (map swap_con (h_cons h)).
