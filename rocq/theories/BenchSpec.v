(** * Vocabulary of the properties about the example sketches (C71 - C74) *)
From Coq Require Import Reals List NArith Arith.
From Verif Require Import Arith Vec Prim Cons Sketch Solve Api Spec ArithR Bench.
Import ListNotations.

(** points 0 .. n-1 under the ids 0 .. n-1, then m lines *)
Definition points_then_lines (n m : nat) : list (N * pcell) :=
  map (fun i => (N.of_nat i, PPoint i)) (seq 0 n) ++ map (fun i => (N.of_nat (n + i), PLine i)) (seq 0 m).
(** consecutive points joined by lines *)
Definition polyline (n : nat) : list line := map (fun i => mkLine i (S i)) (seq 0 (n - 1)).

Section Built.
Context {F : Type} {A : Arith F}.

(** what the stairs benchmark is to build: all points at the origin, the first fixed there, and each line alternately
    horizontal and vertical with length 0.8 *)
Definition stairs_cons (n : nat) : list (con F) :=
  FixPoint 0 f0 f0 :: flat_map (fun i =>
    if Nat.even i then [HorizontalDistance i (S i) lit_08; HorizontalLine i]
    else [VerticalDistance i (S i) lit_08; VerticalLine i]) (seq 0 (n - 1)).
Definition stairs_heap (n : nat) : heap F := mkHeap (repeat (mkPoint f0 f0 f0 f0) n) (polyline n) [] [] (stairs_cons n).
Definition stairs_sketch (n : nat) : sketch := mkSketch (points_then_lines n (n - 1)) (N.of_nat (n + (n - 1))) (seq 0 (S (2 * (n - 1)))).
Definition stairs_rets (n : nat) : list (ret F) :=
  flat_map (fun i => [RetLoc i; RetId (N.of_nat i)]) (seq 0 n) ++ [RetLoc 0; RetOk] ++
  flat_map (fun i => [RetLoc i; RetId (N.of_nat (n + i)); RetLoc (2 * i + 1); RetOk; RetLoc (2 * i + 2); RetOk]) (seq 0 (n - 1)).

(** what the circle benchmark is to build *)
Definition circle_cons (n : nat) : list (con F) :=
  map (fun i => FixPoint i (true_x i) (true_y i)) (seq 0 n) ++
  flat_map (fun i => [EuclideanDistance i (S i) (circle_distance i);
                      AngleBetweenPoints (S i) ((i + n - 1) mod n) i (circle_angle n i)]) (seq 0 (n - 1)).
Definition circle_heap (n : nat) : heap F :=
  mkHeap (map (fun i => mkPoint f0 (fnat i /f fnat n) f0 f0) (seq 0 n)) (polyline n) [] [] (circle_cons n).
Definition circle_sketch (n : nat) : sketch := mkSketch (points_then_lines n (n - 1)) (N.of_nat (n + (n - 1))) (seq 0 (n + 2 * (n - 1))).
Definition circle_rets (n : nat) : list (ret F) :=
  flat_map (fun i => [RetLoc i; RetId (N.of_nat i)]) (seq 0 n) ++ flat_map (fun i => [RetLoc i; RetOk]) (seq 0 n) ++
  flat_map (fun i => [RetLoc i; RetId (N.of_nat (n + i)); RetLoc (n + 2 * i); RetOk; RetLoc (n + 2 * i + 1); RetOk]) (seq 0 (n - 1)).

(** what the two rectangle examples are to build *)
Definition aligned_heap : heap F :=
  mkHeap (repeat (mkPoint f0 f0 f0 f0) 4) [mkLine 0 1; mkLine 1 2; mkLine 2 3; mkLine 3 0] [] []
    [FixPoint 0 f0 f0; HorizontalLine 0; HorizontalLine 2; VerticalLine 1; VerticalLine 3;
     HorizontalDistance 0 1 f2; VerticalDistance 0 3 (flit 3 0)].
Definition aligned_sketch : sketch := mkSketch (points_then_lines 4 4) 8 (seq 0 7).
Definition aligned_rets : list (ret F) :=
  map RetLoc (seq 0 4) ++ map (fun i => RetId (N.of_nat i)) (seq 0 4) ++
  map RetLoc (seq 0 4) ++ map (fun i => RetId (N.of_nat i)) (seq 4 4) ++ flat_map (fun i => [RetLoc i; RetOk]) (seq 0 7).
Definition rotated_heap : heap F :=
  mkHeap [mkPoint f0 (flit 1 1) f0 f0; mkPoint (flit 3 1) f0 f0 f0; mkPoint (flit 3 1) (flit 3 1) f0 f0; mkPoint (flit 1 1) (flit 3 1) f0 f0; mkPoint f1 f0 f0 f0]
    [mkLine 0 1; mkLine 1 2; mkLine 2 3; mkLine 3 0] [] []
    [FixPoint 0 f0 f0; PerpendicularLines 0 1; PerpendicularLines 1 2; PerpendicularLines 2 3;
     EuclideanDistance 0 1 f2; EuclideanDistance 0 3 (flit 3 0); FixPoint 4 f1 f0; AngleBetweenPoints 4 1 0 (to_radians (flit 45 0))].
Definition rotated_sketch : sketch := mkSketch (points_then_lines 5 4) 9 (seq 0 8).
Definition rotated_rets : list (ret F) := map RetLoc (seq 0 5) ++ map RetLoc (seq 0 4) ++ map RetLoc (seq 0 8).
End Built.

Local Open Scope R_scope.
(** where the points belong: the corners of a staircase with steps of 0.8 *)
Definition stair_x (i : nat) : R := INR ((i + 1) / 2) * (8 / 10).
Definition stair_y (i : nat) : R := INR (i / 2) * (8 / 10).
(** point [l] is at (x, y) *)
Definition point_at (h : heap xR) (l : loc) (x y : R) : Prop := pdata h l = (Fin x, Fin y).
(** the placements of the rotated example that meet every constraint: the side ab is two long and turned by 45 degrees up
    (sg = 1) or down (sg = -1) from the reference, and along the perpendicular of ab, to one side (t = 1) or the other
    (t = -1), either stand the sides of a rectangle three high, or c and d are one point *)
Definition rotated_base (h : heap xR) (sg : R) : Prop :=
  point_at h 0%nat 0 0 /\ point_at h 4%nat 1 0 /\ point_at h 1%nat (sqrt 2) (sg * sqrt 2).
Definition rotated_rectangle (h : heap xR) (sg t : R) : Prop :=
  point_at h 2%nat (sqrt 2 - sg * t * 3 / sqrt 2) (sg * sqrt 2 + t * 3 / sqrt 2) /\
  point_at h 3%nat (- sg * t * 3 / sqrt 2) (t * 3 / sqrt 2).
Definition rotated_triangle (h : heap xR) (sg t : R) : Prop :=
  point_at h 2%nat (sqrt 2 - sg * t * sqrt 5 / sqrt 2) (sg * sqrt 2 + t * sqrt 5 / sqrt 2) /\
  point_at h 3%nat (sqrt 2 - sg * t * sqrt 5 / sqrt 2) (sg * sqrt 2 + t * sqrt 5 / sqrt 2).
Definition plus_or_minus (x : R) : Prop := x = 1 \/ x = -1.
