(** * Example sketches and benchmarks (src/examples, benches/solvers)

    The sketches are given as the lists of calls that build them; locations are the addresses
    the calls return (C71, C72, C73, C74 prove that the calls succeed and return these). *)
From Coq Require Import List ZArith NArith Arith Bool.
From Verif Require Import Arith Vec Prim Cons Sketch Solve Api.
Import ListNotations.

Section Bench.
Context {F : Type} {A : Arith F}.

(** [k as f64] for a usize [k]; exact below 2^53 and correctly rounded above, like a literal *)
Definition fnat (k : nat) : F := flit (Z.of_nat k) 0.
Definition lit_08 : F := flit 8 1.                                            (* 0.8 *)

(** ** Stairs (benches/solvers/stairs_with_lines_benchmark.rs) *)
(** 33-106.  [n - 1] underflows and [point_references[0]] is out of bounds for n = 0: 1 <= n. *)
Definition stairs_points (n : nat) : list (op F) :=
  flat_map (fun i => [NewPoint f0 f0; AddPrimitive (PPoint i)]) (seq 0 n).    (* 36-44 *)
Definition stairs_fix : list (op F) := [NewCon (FixPoint 0 f0 f0); AddConstraint 0]. (* 46-51 *)
Definition stairs_step (i : nat) : list (op F) :=                             (* 53-100 *)
  [NewLine i (S i); AddPrimitive (PLine i)] ++
  if Nat.even i then
    [NewCon (HorizontalDistance i (S i) lit_08); AddConstraint (2 * i + 1);
     NewCon (HorizontalLine i); AddConstraint (2 * i + 2)]
  else
    [NewCon (VerticalDistance i (S i) lit_08); AddConstraint (2 * i + 1);
     NewCon (VerticalLine i); AddConstraint (2 * i + 2)].
Definition stairs_ops (n : nat) : list (op F) :=
  stairs_points n ++ stairs_fix ++ flat_map stairs_step (seq 0 (n - 1)).
(** 118-119; also the reference points of the other benchmark, circle_with_lines_benchmark.rs:18-26 *)
Definition true_x (i : nat) : F := fnat ((i + 1) / 2) *f lit_08.
Definition true_y (i : nat) : F := fnat (i / 2) *f lit_08.
(** one pass of the loops 116-123 / circle_with_lines_benchmark.rs:110-117 *)
Definition near_ref (h : heap F) (eps : F) (i : nat) : bool :=
  let p := getP h i in
  negb (fgt (fabs (p_x p -f true_x i)) eps || fgt (fabs (p_y p -f true_y i)) eps).
(** 115-125: the points 0 .. n-2 ([len() - 1] underflows for n = 0) *)
Definition stairs_check (n : nat) (h : heap F) (eps : F) : bool := forallb (near_ref h eps) (seq 0 (n - 1)).

(** ** Circle (benches/solvers/circle_with_lines_benchmark.rs) *)
(** 18-26 *)
Definition ref_pt (i : nat) : F * F := (true_x i, true_y i).
(** nalgebra's [Matrix::angle] (0.32.5, base/norm.rs): zero for a zero vector *)
Definition v2angle (u v : F * F) : F :=
  let n1 := v2norm u in let n2 := v2norm v in
  if feq n1 f0 || feq n2 f0 then f0 else facos (fclamp fm1 f1 (v2dot u v /f (n1 *f n2))).
(** 31-99.  [n - 1] underflows for n = 0: 1 <= n. *)
Definition circle_points (n : nat) : list (op F) :=
  flat_map (fun i => [NewPoint f0 (fnat i /f fnat n); AddPrimitive (PPoint i)]) (seq 0 n).   (* 36-44 *)
Definition circle_fix (n : nat) : list (op F) :=                                        (* 46-56 *)
  flat_map (fun i => [NewCon (FixPoint i (true_x i) (true_y i)); AddConstraint i]) (seq 0 n).
Definition circle_distance (i : nat) : F := v2norm (v2sub (ref_pt (i + 1)) (ref_pt i)).       (* 68 *)
Definition circle_angle (n i : nat) : F :=                                                  (* 80-81 *)
  v2angle (v2sub (ref_pt (i + 1)) (ref_pt i)) (v2sub (ref_pt ((i + n - 1) mod n)) (ref_pt i)).
Definition circle_step (n i : nat) : list (op F) :=                                         (* 58-93 *)
  [NewLine i (S i); AddPrimitive (PLine i);
   NewCon (EuclideanDistance i (S i) (circle_distance i)); AddConstraint (n + 2 * i);
   NewCon (AngleBetweenPoints (S i) ((i + n - 1) mod n) i (circle_angle n i)); AddConstraint (n + 2 * i + 1)].
Definition circle_ops (n : nat) : list (op F) :=
  circle_points n ++ circle_fix n ++ flat_map (circle_step n) (seq 0 (n - 1)).
(** 108-119: all points *)
Definition circle_check (n : nat) (h : heap F) (eps : F) : bool := forallb (near_ref h eps) (seq 0 n).

(** ** The axis-aligned rectangle (src/examples/test_rectangle_axis_aligned.rs) *)
(** 24-109 *)
Definition aligned_ops : list (op F) :=
  [NewPoint f0 f0; NewPoint f0 f0; NewPoint f0 f0; NewPoint f0 f0;                    (* 27-30 *)
   AddPrimitive (PPoint 0); AddPrimitive (PPoint 1); AddPrimitive (PPoint 2); AddPrimitive (PPoint 3);   (* 33-44 *)
   NewLine 0 1; NewLine 1 2; NewLine 2 3; NewLine 3 0;                                (* 47-50 *)
   AddPrimitive (PLine 0); AddPrimitive (PLine 1); AddPrimitive (PLine 2); AddPrimitive (PLine 3);       (* 53-64 *)
   NewCon (FixPoint 0 f0 f0); AddConstraint 0;                                        (* 67-71 *)
   NewCon (HorizontalLine 0); AddConstraint 1; NewCon (HorizontalLine 2); AddConstraint 2;   (* 74-83 *)
   NewCon (VerticalLine 1); AddConstraint 3; NewCon (VerticalLine 3); AddConstraint 4;       (* 86-95 *)
   NewCon (HorizontalDistance 0 1 f2); AddConstraint 5;                               (* 98-102 *)
   NewCon (VerticalDistance 0 3 (flit 3 0)); AddConstraint 6].                         (* 105-109 *)
(** [(point - Vector2::new(x, y)).norm()] *)
Definition away (h : heap F) (p : loc) (x y : F) : F := v2norm (v2sub (pdata h p) (x, y)).
(** the assertions, 121-124 *)
Definition aligned_asserts (h : heap F) : bool :=
  flt (away h 0 f0 f0) (flit 1 8) && flt (away h 1 f2 f0) (flit 1 8) &&
  flt (away h 2 f2 (flit 3 0)) (flit 1 8) && flt (away h 3 f0 (flit 3 0)) (flit 1 8).

(** ** The rotated rectangle (src/examples/test_rectangle_rotated.rs) *)
(** f64::to_radians (core/num/f64.rs): [self * (consts::PI / 180.0)] *)
Definition to_radians (x : F) : F := x *f (fpi /f flit 180 0).
(** 25-82 *)
Definition rotated_ops : list (op F) :=
  [AddPoint2 f0 (flit 1 1); AddPoint2 (flit 3 1) f0; AddPoint2 (flit 3 1) (flit 3 1); AddPoint2 (flit 1 1) (flit 3 1);
   AddPoint2 f1 f0;                                                                  (* 29-34 *)
   AddLine 0 1; AddLine 1 2; AddLine 2 3; AddLine 3 0;                               (* 36-39 *)
   Constrain (FixPoint 0 f0 f0);                                                     (* 42 *)
   Constrain (PerpendicularLines 0 1); Constrain (PerpendicularLines 1 2); Constrain (PerpendicularLines 2 3); (* 45-49 *)
   Constrain (EuclideanDistance 0 1 f2); Constrain (EuclideanDistance 0 3 (flit 3 0));  (* 58-61 *)
   Constrain (FixPoint 4 f1 f0);                                                     (* 64 *)
   Constrain (AngleBetweenPoints 4 1 0 (to_radians (flit 45 0)))].                 (* 67-72 *)
(** check, 84-154: true is Ok *)
Definition rotated_check (h : heap F) (eps : F) : bool :=
  let far p x y := fge (away h p x y) eps in
  let s2 := fsqrt f2 in let s22 := s2 /f f2 in
  let three := flit 3 0 in let five := flit 5 0 in
  let by_ := p_y (getP h 1) in let cy_ := p_y (getP h 2) in
  if far 4 f1 f0 then false else                                                       (* 94-96 *)
  if far 0 f0 f0 then false else                                                       (* 98-100 *)
  if flt by_ f0 then                                                                   (* 103 *)
    if far 1 s2 (fneg s2) then false else                                              (* 104-106 *)
    if flt cy_ by_ then                                                                (* 108 *)
      if far 2 (fneg s22) (fneg five *f s22) then false else                           (* 110-112 *)
      negb (far 3 (fneg three *f s22) (fneg three *f s22))                             (* 114-116 *)
    else
      if far 2 (five *f s22) s22 then false else                                       (* 119-121 *)
      negb (far 3 (three *f s22) (three *f s22))                                       (* 123-125 *)
  else
    if far 1 s2 s2 then false else                                                     (* 128-130 *)
    if fgt cy_ by_ then                                                                (* 132 *)
      if far 2 (fneg s22) (five *f s22) then false else                                (* 134-136 *)
      negb (far 3 (fneg three *f s22) (three *f s22))                                  (* 138-140 *)
    else
      if far 2 (five *f s22) (fneg s22) then false else                                (* 143-145 *)
      negb (far 3 (three *f s22) (fneg three *f s22)).                                 (* 147-149 *)
End Bench.
