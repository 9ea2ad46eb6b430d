(** * The tests of the repository, replayed in the model

    Validation of the model, not proofs: the [#[test]]s of the crate are carried over call by call and computed in
    binary64, with the assertions of the repository.  [sin], [cos], [acos] and [atan2] are computed to more than a
    hundred bits and rounded once.  Each [.._run] is computed while this file is compiled and stored as its value
    ([Eval vm_compute]), so that a changed model fails the build but checking the compiled file again does not repeat the
    computation.  The two tests of Gauss-Newton and Levenberg-Marquardt
    (gauss_newton_solver.rs:75-91, levenberg_marquardt.rs:86-102) are missing: they need a singular value
    decomposition. *)
From Coq Require Import List ZArith NArith Arith Bool Floats.SpecFloat.
From Verif Require Import Arith Vec Prim Cons Sketch Solve Api Decomp Bench ArithF.
Import ListNotations.

(** ** libm, in fixed point: z stands for z / 2^128 *)
Local Open Scope Z_scope.
Definition fix_of (x : spec_float) : Z :=
  match x with S754_finite s m e => let v := Z.shiftl (Zpos m) (e + 128) in if s then - v else v | _ => 0 end.
Definition of_fix (s : bool) (z : Z) : spec_float := if z =? 0 then S754_zero s else binary_normalize prec64 emax64 z (-128) false.
Definition mulz (a b : Z) : Z := Z.shiftr (a * b) 128.
Definition divz (a b : Z) : Z := Z.shiftl a 128 / b.
Definition onez : Z := Z.shiftl 1 128.
Definition sqrtz (a : Z) : Z := Z.sqrt (Z.shiftl a 128).
(** the sum of t, -t y^2 / (k (k+1)), ... *)
Fixpoint series (n : nat) (k t y2 : Z) : Z :=
  match n with O => t | S n' => t + series n' (k + 2) (- (mulz t y2) / (k * (k + 1))) y2 end.
(** the sum of p, -p y^2, ... divided by k, k+2, ... *)
Fixpoint aseries (n : nat) (k p y2 : Z) : Z :=
  match n with O => 0 | S n' => p / k + aseries n' (k + 2) (- (mulz p y2)) y2 end.
Definition atan_small (y : Z) : Z := aseries 70 1 y (mulz y y).
Definition halve_atan (y : Z) : Z := divz y (onez + sqrtz (onez + mulz y y)).
Definition atanz (y : Z) : Z := 8 * atan_small (halve_atan (halve_atan (halve_atan y))).
Definition piz : Z := Eval vm_compute in 4 * (4 * atan_small (onez / 5) - atan_small (onez / 239)).
(** sin x = - sin (x - pi), cos x = - cos (x - pi) *)
Definition reducez (x : Z) : Z := x mod (2 * piz) - piz.
Definition sinz (x : Z) : Z := let y := reducez x in - (series 50 2 y (mulz y y)).
Definition cosz (x : Z) : Z := let y := reducez x in - (series 50 1 onez (mulz y y)).
(** the angle of (x, y) for y >= 0 *)
Definition anglez (x y : Z) : Z :=
  let a := Z.abs x in
  let t := if a =? 0 then piz / 2 else if y <=? a then atanz (divz y a) else piz / 2 - atanz (divz a y) in
  if x <? 0 then piz - t else t.
Definition neg64 (x : spec_float) : bool := match x with S754_zero s | S754_infinity s | S754_finite s _ _ => s | S754_nan => false end.
Definition test_libm : libm := mkLibm
  (fun x => if fin64 x then match x with S754_zero _ => x | _ => of_fix false (sinz (fix_of x)) end else S754_nan)
  (fun x => if fin64 x then of_fix false (cosz (fix_of x)) else S754_nan)
  (fun x => if fin64 x && (Z.abs (fix_of x) <=? onez) then of_fix false (anglez (fix_of x) (sqrtz (onez - mulz (fix_of x) (fix_of x)))) else S754_nan)
  (fun y x => if fin64 y && fin64 x then
     let v := match y, neg64 x with S754_zero _, n => if n then piz else 0 | _, _ => anglez (fix_of x) (Z.abs (fix_of y)) end in
     of_fix (neg64 y) (if neg64 y then - v else v) else S754_nan).
Local Close Scope Z_scope.

#[local] Instance AT : Arith spec_float := ArithF test_libm.

Definition no_pinv : mat spec_float -> spec_float -> pinv_res (mat spec_float) := fun _ _ => PErr.

(** ** running a test *)
Fixpoint exec (os : list (op spec_float)) (st : state spec_float) : state spec_float * list (ret spec_float) :=
  match os with
  | [] => (st, [])
  | o :: os' => let (st1, r) := step no_pinv st o in let (st2, rs) := exec os' st1 in (st2, r :: rs)
  end.
Definition unwraps (r : ret spec_float) : bool :=
  match r with RetErr _ | RetPanic | RetSolve (SErr _) => false | _ => true end.
(** every call succeeds and the assertions hold afterwards *)
Definition passes (os : list (op spec_float)) (asserts : heap spec_float -> sketch -> bool) : bool :=
  let '((h, s), rs) := exec os init in forallb unwraps rs && asserts h s.
(** the last call, and no other, is refused with [e] *)
Definition refused (os : list (op spec_float)) (e : err) : Prop :=
  let rs := snd (exec os init) in forallb unwraps (removelast rs) = true /\ last rs RetOk = RetErr e.
Definition z (m : Z) : spec_float := lit64 m 0.
Definition tiny : spec_float := lit64 1 6.
Definition GD : op spec_float := Solve (GradientBased gd_default).
Definition below (k : loc) (b : spec_float) (h : heap spec_float) (s : sketch) : bool := flt (loss_value h (getK h k)) b.
Definition milli : spec_float := lit64 1 3.
Definition loc_line (p q : loc) (l : loc) : list (op spec_float) := [NewLine p q; AddPrimitive (PPoint p); AddPrimitive (PPoint q); AddPrimitive (PLine l)].

(** ** src/constraints *)
(** angle_between_points.rs:197-242 *)
Definition test_angle_between_points_run : bool := Eval vm_compute in passes
  [NewPoint f1 f0; NewPoint f0 f1; NewPoint f0 f0; AddPrimitive (PPoint 0); AddPrimitive (PPoint 1); AddPrimitive (PPoint 2);
   NewCon (AngleBetweenPoints 0 1 2 (fpi /f z 4)); AddConstraint 0; CheckGradients tiny 0 tiny; GD] (below 0 milli).
Example test_angle_between_points : test_angle_between_points_run = true. Proof. reflexivity. Qed.
(** a decimal literal with 16 to 19 digits after the point: numerator and denominator are not exact in binary64, so the
    quotient is rounded once, from the integers *)
Definition dec (m : Z) (k : nat) : spec_float :=
  let d := (10 ^ Z.of_nat k)%Z in
  binary_normalize prec64 emax64 (let n := (Z.abs m * 2 ^ 200)%Z in let q := (n / d)%Z in let q := (2 * q + (if (n mod d =? 0)%Z then 0 else 1))%Z in if (m <? 0)%Z then (- q)%Z else q) (-201) false.
Example dec_05 : dec 5 1 = lit64 5 1 /\ dec (-1) 6 = SFopp (lit64 1 6) /\ dec 9 1 = lit64 9 1. Proof. vm_compute. auto. Qed.
(** angle_between_points.rs:244-276 *)
Definition test_specific_case_run : bool := Eval vm_compute in passes
  [AddPoint2 (dec 7805516932908316 16) (dec (-782612334736288) 17); AddPoint2 (dec 122103191002294 14) (dec 4601914768224987 18);
   AddPoint2 (dec 13589691730458502 18) (dec (-10039941813640837) 17);
   NewCon (AngleBetweenPoints 0 1 2 (fpi /f z 2)); AddConstraint 0; CheckGradients tiny 0 (lit64 1 4); GD] (below 0 milli).
Example test_specific_case : test_specific_case_run = true. Proof. reflexivity. Qed.
(** fix_point.rs:84-104 *)
Definition test_fix_point_run : bool := Eval vm_compute in passes
  [AddPoint2 f1 f0; NewCon (FixPoint 0 f1 f1); AddConstraint 0; CheckGradients tiny 0 tiny; GD] (below 0 milli).
Example test_fix_point : test_fix_point_run = true. Proof. reflexivity. Qed.
Definition two_points (c : con spec_float) : list (op spec_float) :=
  [AddPoint2 f1 f0; AddPoint2 f0 f1; NewCon c; AddConstraint 0; CheckGradients tiny 0 tiny; GD].
(** euclidian_distance_between_points.rs:137-165 *)
Definition test_euclidian_distance_between_points_run : bool := Eval vm_compute in passes (two_points (EuclideanDistance 0 1 (z 3))) (below 0 milli).
Example test_euclidian_distance_between_points : test_euclidian_distance_between_points_run = true. Proof. reflexivity. Qed.
(** horizontal_distance_between_points.rs:134-162 *)
Definition test_horizontal_distance_between_points_run : bool := Eval vm_compute in passes (two_points (HorizontalDistance 0 1 (z (-3)))) (below 0 milli).
Example test_horizontal_distance_between_points : test_horizontal_distance_between_points_run = true. Proof. reflexivity. Qed.
(** vertical_distance_between_points.rs:135-169 *)
Definition test_vertical_distance_between_points_run : bool := Eval vm_compute in passes
  [NewPoint f1 f0; NewPoint f0 f1; AddPrimitive (PPoint 0); AddPrimitive (PPoint 1);
   NewCon (VerticalDistance 0 1 (z 3)); AddConstraint 0; CheckGradients tiny 0 tiny; GD] (below 0 milli).
Example test_vertical_distance_between_points : test_vertical_distance_between_points_run = true. Proof. reflexivity. Qed.
(** horizontal_line.rs:83-120, vertical_line.rs:83-119 *)
Definition one_line (c : con spec_float) : list (op spec_float) :=
  [NewPoint (z 3) (z 4); NewPoint (z 5) (z 6)] ++ loc_line 0 1 0 ++ [NewCon c; AddConstraint 0; CheckGradients tiny 0 tiny; GD].
Definition test_horizontal_line_run : bool := Eval vm_compute in passes (one_line (HorizontalLine 0))
  (fun h _ => flt (fabs (snd (pdata h (l_end (getL h 0))) -f snd (pdata h (l_start (getL h 0))))) tiny).
Example test_horizontal_line : test_horizontal_line_run = true. Proof. reflexivity. Qed.
Definition test_vertical_line_run : bool := Eval vm_compute in passes (one_line (VerticalLine 0))
  (fun h _ => flt (fabs (fst (pdata h (l_end (getL h 0))) -f fst (pdata h (l_start (getL h 0))))) tiny).
Example test_vertical_line : test_vertical_line_run = true. Proof. reflexivity. Qed.
Definition two_lines (x y : spec_float) (c : con spec_float) : list (op spec_float) :=
  [NewPoint (z 3) (z 4); NewPoint (z 5) (z 6)] ++ loc_line 0 1 0 ++ [NewPoint (z 0) (z 4); NewPoint x y] ++ loc_line 2 3 1 ++
  [NewCon c; AddConstraint 0; CheckGradients tiny 0 tiny; GD].
(** equal_length.rs:112-171 *)
Definition test_equal_length_run : bool := Eval vm_compute in passes (two_lines (z 10) (z 6) (EqualLength 0 1)) (below 0 milli).
Example test_equal_length : test_equal_length_run = true. Proof. reflexivity. Qed.
(** parallel_lines.rs:140-202 *)
Definition test_parallel_line_run : bool := Eval vm_compute in passes (two_lines (z 5) (z 6) (ParallelLines 0 1)) (below 0 milli).
Example test_parallel_line : test_parallel_line_run = true. Proof. reflexivity. Qed.
(** perpendicular_lines.rs:142-148 *)
Example test_zero_vec_normalized_does_not_panic : v2normalize (f0, f0) = (S754_nan, S754_nan).
Proof. vm_compute. reflexivity. Qed.
(** perpendicular_lines.rs:150-213 *)
Definition test_perpendicular_line_run : bool := Eval vm_compute in passes (two_lines (z 5) (z 6) (PerpendicularLines 0 1)) (below 0 (lit64 1 2)).
Example test_perpendicular_line : test_perpendicular_line_run = true. Proof. reflexivity. Qed.
(** arc_start_point_coincident.rs:98-138, arc_end_point_coincident.rs:98-136 *)
Definition arc_and_line (c : con spec_float) : list (op spec_float) :=
  [AddPoint2 f0 f0; AddArc 0 f1 false f0 fpi; AddPoint2 (z 3) (z 4); AddPoint2 (z 5) (z 6); AddLine 1 2;
   NewCon c; AddConstraint 0; CheckGradients tiny 0 (lit64 1 5); GD].
Definition close (p q : spec_float * spec_float) : bool := flt (fabs (fst p -f fst q)) tiny && flt (fabs (snd p -f snd q)) tiny.
Definition test_arc_start_point_coincident_run : bool := Eval vm_compute in passes (arc_and_line (ArcStartPointCoincident 0 2))
  (fun h _ => close (arc_start_point h (getA h 0)) (pdata h (l_end (getL h 0)))).
Example test_arc_start_point_coincident : test_arc_start_point_coincident_run = true. Proof. reflexivity. Qed.
Definition test_arc_end_point_coincident_run : bool := Eval vm_compute in passes (arc_and_line (ArcEndPointCoincident 0 1))
  (fun h _ => close (arc_end_point h (getA h 0)) (pdata h (l_start (getL h 0)))).
Example test_arc_end_point_coincident : test_arc_end_point_coincident_run = true. Proof. reflexivity. Qed.

(** ** src/decompose/mod.rs *)
Definition drawing (ps : list (Z * Z)) (ls : list (nat * nat)) : list (op spec_float) :=
  map (fun p => NewPoint (z (fst p)) (z (snd p))) ps ++ map (fun i => AddPrimitive (PPoint i)) (seq 0 (length ps)) ++
  flat_map (fun il => [NewLine (fst (snd il)) (snd (snd il)); AddPrimitive (PLine (fst il))]) (combine (seq 0 (length ls)) ls).
Definition polygons (h : heap spec_float) (rs : list (ring spec_float)) : list (list (spec_float * spec_float)) := map (fun r => ext (ring_polygon h r)) rs.
Definition same_polygon (p q : list (spec_float * spec_float)) : bool := Nat.eqb (length p) (length q) && forallb (fun ab => v2eq (fst ab) (snd ab)) (combine p q).
(** 269-295 *)
Definition test_find_rings_none_run : bool := Eval vm_compute in passes (drawing [(0, 0); (1, 0); (1, 1)]%Z [(0, 1); (1, 2)])
  (fun h s => let (rs, un) := find_rings h s in Nat.eqb (length rs) 0 && Nat.eqb (length un) 2).
Example test_find_rings_none : test_find_rings_none_run = true. Proof. reflexivity. Qed.
(** 297-325 *)
Definition test_find_rings_one_run : bool := Eval vm_compute in passes (drawing [(0, 0); (1, 0); (1, 1)]%Z [(0, 1); (1, 2); (2, 0)])
  (fun h s => let (rs, un) := find_rings h s in Nat.eqb (length rs) 1 && Nat.eqb (length un) 0).
Example test_find_rings_one : test_find_rings_one_run = true. Proof. reflexivity. Qed.
(** 327-397 *)
Definition test_find_rings_multiple_run : bool := Eval vm_compute in passes
  (drawing [(-1, 0); (0, 1); (1, 0); (0, -1); (2, 0); (3, 0)]%Z [(0, 1); (1, 2); (2, 3); (3, 0); (1, 4); (4, 3); (1, 5); (5, 3)])
  (fun h s => let (rs, un) := find_rings h s in Nat.eqb (length rs) 3 && Nat.eqb (length un) 0 &&
    let want := map (map (fun p => (z (fst p), z (snd p))))
      [[(0, 1); (1, 0); (0, -1); (2, 0); (0, 1)]; [(0, 1); (2, 0); (0, -1); (3, 0); (0, 1)]; [(0, 1); (-1, 0); (0, -1); (1, 0); (0, 1)]]%Z in
    Nat.eqb (length (polygons h rs)) (length want) && forallb (fun pq => same_polygon (fst pq) (snd pq)) (combine (polygons h rs) want)).
Example test_find_rings_multiple : test_find_rings_multiple_run = true. Proof. reflexivity. Qed.

(** ** src/sketch/mod.rs *)
(** 388-401 *)
Example test_references_have_to_be_added_beforehand : refused [NewPoint f0 f0; NewArc 0 f1 true f0 f1; AddPrimitive (PArc 0)] MissingSketchReferences.
Proof. vm_compute. auto. Qed.
(** 403-413 *)
Example test_primitive_cannot_be_added_twice : refused [NewPoint f0 f0; AddPrimitive (PPoint 0); AddPrimitive (PPoint 0)] PrimitiveAlreadyInSketch.
Proof. vm_compute. auto. Qed.
(** 415-433 *)
Example test_constraint_references_have_to_be_added_beforehand :
  refused [NewPoint f0 f0; NewArc 0 f1 true f0 f1; AddPrimitive (PPoint 0); NewCon (ArcEndPointCoincident 0 0); AddConstraint 0] MissingSketchReferences.
Proof. vm_compute. auto. Qed.
(** 435-455 *)
Example test_constraint_cannot_be_added_twice :
  refused [AddPoint2 f0 f0; AddArc 0 f1 true f0 f1; NewCon (ArcEndPointCoincident 0 0); AddConstraint 0; AddConstraint 0] ConstraintAlreadyInSketch.
Proof. vm_compute. auto. Qed.
(** 457-466; the three calls that change nothing are functions of the model *)
Definition test_data_and_grad_functions_run : bool := Eval vm_compute in passes (rotated_ops ++ [GetGradient; GetJacobian]) (fun _ _ => true).
Example test_data_and_grad_functions : test_data_and_grad_functions_run = true. Proof. reflexivity. Qed.

(** ** src/examples, src/solvers *)
Definition test_rectangle_axis_aligned_run : bool := Eval vm_compute in passes (aligned_ops ++ [Solve (BFGS bfgs_default)]) (fun h _ => aligned_asserts h).
Example test_rectangle_axis_aligned : test_rectangle_axis_aligned_run = true. Proof. reflexivity. Qed.
(** test_rectangle_rotated.rs:166-184, bfgs_solver.rs:131-150: the same calls *)
Definition test_rectangle_rotated_run : bool := Eval vm_compute in passes (rotated_ops ++ [Solve (BFGS bfgs_default)]) (fun h _ => rotated_check h (lit64 1 5)).
Example test_rectangle_rotated : test_rectangle_rotated_run = true. Proof. reflexivity. Qed.
