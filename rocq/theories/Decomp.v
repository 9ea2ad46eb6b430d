(** * Decomposition into rings and faces  (src/decompose)

    The geometric predicates of the external crate geo (polygon containment, interior
    point) are parameters. *)
From Coq Require Import List ZArith NArith Arith Bool.
From Verif Require Import Arith Vec Prim Cons Sketch.
Import ListNotations.

Section Decomp.
Context {F : Type} {A : Arith F}.

(** decompose/segment.rs:7-10: a line (two point handles) or an arc, by value *)
Inductive seg := SLine (l : line) | SArc (a : arc F).

(** [Vector2] equality *)
Definition v2eq (a b : F * F) : bool := feq (fst a) (fst b) && feq (snd a) (snd b).

(** segment.rs:13-18, 20-25 *)
Definition get_start (h : heap F) (s : seg) : F * F :=
  match s with SLine l => pdata h (l_start l) | SArc a => arc_start_point h a end.
Definition get_end (h : heap F) (s : seg) : F * F :=
  match s with SLine l => pdata h (l_end l) | SArc a => arc_end_point h a end.
(** segment.rs:27-34 *)
Definition seg_reverse (s : seg) : seg :=
  match s with SLine l => SLine (mkLine (l_end l) (l_start l)) | SArc a => SArc (Arc_reverse a) end.
(** segment.rs:36-39, 41-44 *)
Definition continues (h : heap F) (s prior : seg) : bool := v2eq (get_end h prior) (get_start h s).
Definition connects (h : heap F) (s prior : seg) : bool :=
  v2eq (get_end h prior) (get_start h s) || v2eq (get_end h prior) (get_end h s).
(** segment.rs:46-55, 57-62 *)
Definition seg_start_angle (h : heap F) (s : seg) : F :=
  match s with
  | SLine l => let st := pdata h (l_start l) in let en := pdata h (l_end l) in
               fatan2 (snd en -f snd st) (fst en -f fst st)
  | SArc a => a_sa a
  end.
Definition seg_end_angle (h : heap F) (s : seg) : F :=
  match s with SLine _ => seg_start_angle h s | SArc a => a_ea a end.

(** Derived PartialEq: Point2 (point2.rs:9) compares data and gradient, Line (line.rs:13)
    and Arc (arc.rs:12) compare the pointed-to points by value. *)
Definition point_eq (p q : point F) : bool :=
  feq (p_x p) (p_x q) && feq (p_y p) (p_y q) && feq (p_gx p) (p_gx q) && feq (p_gy p) (p_gy q).
Definition line_eq (h : heap F) (l m : line) : bool :=
  point_eq (getP h (l_start l)) (getP h (l_start m)) && point_eq (getP h (l_end l)) (getP h (l_end m)).
Definition arc_eq (h : heap F) (a b : arc F) : bool :=
  point_eq (getP h (a_center a)) (getP h (a_center b)) &&
  (feq (a_radius a) (a_radius b) && feq (a_sa a) (a_sa b) && feq (a_ea a) (a_ea b)) &&
  (feq (a_gr a) (a_gr b) && feq (a_gsa a) (a_gsa b) && feq (a_gea a) (a_gea b)) &&
  Bool.eqb (a_cw a) (a_cw b).
Definition circle_eq (h : heap F) (a b : circle F) : bool :=       (* circle.rs:12 *)
  point_eq (getP h (c_center a)) (getP h (c_center b)) &&
  feq (c_radius a) (c_radius b) && feq (c_gr a) (c_gr b).
(** segment.rs:6 *)
Definition seg_eq (h : heap F) (s t : seg) : bool :=
  match s, t with
  | SLine l, SLine m => line_eq h l m
  | SArc a, SArc b => arc_eq h a b
  | _, _ => false
  end.
(** segment.rs:64-66, 68-70 *)
Definition reverse_equals (h : heap F) (s t : seg) : bool := seg_eq h s (seg_reverse t).
Definition equals_or_reverse_equals (h : heap F) (s t : seg) : bool :=
  seg_eq h s t || reverse_equals h s t.

(** decompose/mod.rs:233-257 *)
Definition angle_difference (a0 a1 : F) : F :=
  let a0 := if fgt a0 ftau then a0 -f ftau else a0 in
  let a0 := if flt a0 f0 then a0 +f ftau else a0 in
  let a1 := if fgt a1 ftau then a1 -f ftau else a1 in
  let a1 := if flt a1 f0 then a1 +f ftau else a1 in
  let d := a1 -f a0 in
  let d := if fgt d ftau then d -f ftau else d in
  if flt d f0 then d +f ftau else d.

(** decompose/mod.rs:204-231.  [enumerate], then the matches with their turning angles, then
    [reduce(|a, b| if a.1 > b.1 { a } else { b })]. *)
Definition next_matches (h : heap F) (segs : list seg) (cur : seg) (used : list nat)
  : list ((nat * seg) * F) :=
  let this_end := frem (seg_end_angle h cur +f fpi) (f2 *f fpi) in
  flat_map (fun p =>
      if existsb (Nat.eqb (fst p)) used then []
      else if continues h (snd p) cur && negb (equals_or_reverse_equals h (snd p) cur)
           then [(p, angle_difference this_end (seg_start_angle h (snd p)))]
           else [])
    (combine (seq 0 (length segs)) segs).
Definition reduce_max (l : list ((nat * seg) * F)) : option (nat * seg) :=
  match l with
  | [] => None
  | x :: l' => Some (fst (fold_left (fun a b => if fgt (snd a) (snd b) then a else b) l' x))
  end.
Definition find_next_segment (h : heap F) (segs : list seg) (cur : seg) (used : list nat)
  : option (nat * seg) := reduce_max (next_matches h segs cur used).

(** decompose/mod.rs:146-160: at most [n] steps; the ring walked if it closes *)
Fixpoint walk (h : heap F) (segs : list seg) (used : list nat) (start : F * F)
         (n : nat) (acc : list (nat * seg)) (cur : nat * seg) : option (list (nat * seg)) :=
  match n with
  | O => None
  | S n' =>
      let acc' := acc ++ [cur] in
      if v2eq (get_end h (snd cur)) start then Some acc'
      else match find_next_segment h segs (snd cur) used with
           | None => None
           | Some nx => walk h segs used start n' acc' nx
           end
  end.

(** decompose/mod.rs:136-161: state (used_indices, new_rings) *)
Definition ring_step (h : heap F) (segs : list seg)
  (st : list nat * list (list (nat * seg))) (p : nat * seg) : list nat * list (list (nat * seg)) :=
  let (used, rings) := st in
  if existsb (Nat.eqb (fst p)) used then st
  else match walk h segs used (get_start h (snd p)) (length segs - 1) [] p with
       | None => st
       | Some r => (used ++ map fst r, rings ++ [r])
       end.
Definition ring_loop (h : heap F) (segs : list seg) : list nat * list (list (nat * seg)) :=
  fold_left (ring_step h segs) (combine (seq 0 (length segs)) segs) ([], []).

(** decompose/mod.rs:113-122 *)
Definition init_segments (h : heap F) (s : sketch) : list seg :=
  flat_map (fun c => match c with
                     | PLine l => [SLine (getL h l)]
                     | PArc a => [SArc (getA h a)]
                     | _ => []
                     end) (cells s).
(** decompose/mod.rs:124-131 *)
Definition all_segments (h : heap F) (s : sketch) : list seg :=
  let i := init_segments h s in i ++ map seg_reverse i.

(** ring.rs:11-14 *)
Inductive ring := RCircle (c : circle F) | RSegments (l : list seg).

(** ring.rs:17-30 *)
Definition signed_area (h : heap F) (r : ring) : F :=
  match r with
  | RCircle c => c_radius c *f c_radius c *f fpi
  | RSegments l =>
      fold_left (fun area s => let st := get_start h s in let en := get_end h s in
                   area +f (fst st *f snd en -f fst en *f snd st)) l f0 /f f2
  end.

(** stable sort by [total_cmp] of the area (mod.rs:193); total_cmp is a total order, so the
    result of a stable sort is determined and insertion sort computes it *)
Fixpoint insert_ring (h : heap F) (r : ring) (l : list ring) : list ring :=
  match l with
  | [] => [r]
  | x :: l' => if ftle (signed_area h r) (signed_area h x) then r :: l else x :: insert_ring h r l'
  end.
Definition sort_rings (h : heap F) (l : list ring) : list ring := fold_right (insert_ring h) [] l.

(** decompose/mod.rs:182-189 *)
Definition circle_rings (h : heap F) (s : sketch) : list ring :=
  flat_map (fun c => match c with PCircle l => [RCircle (getC h l)] | _ => [] end) (cells s).

(** decompose/mod.rs:163-173 *)
Definition unused_segments (used : list nat) (init : list seg) : list seg :=
  flat_map (fun p => if existsb (Nat.eqb (fst p)) used then [] else [snd p])
           (combine (seq 0 (length init)) init).

(** decompose/mod.rs:112-202 *)
Definition find_rings (h : heap F) (s : sketch) : list ring * list seg :=
  let (used, walks) := ring_loop h (all_segments h s) in
  let all_rings := map (fun r => RSegments (map snd r)) walks ++ circle_rings h s in
  (filter (fun r => fgt (signed_area h r) f0) (sort_rings h all_rings),
   unused_segments used (init_segments h s)).

(** ring.rs:32-53 *)
Definition adjacent_edges (h : heap F) (r t : ring) : option (list nat * list nat) :=
  match r, t with
  | RSegments la, RSegments lb =>
      let pairs := flat_map (fun pa =>
          flat_map (fun pb => if reverse_equals h (snd pa) (snd pb) then [(fst pa, fst pb)] else [])
                   (combine (seq 0 (length lb)) lb))
        (combine (seq 0 (length la)) la) in
      match pairs with [] => None | _ => Some (map fst pairs, map snd pairs) end
  | _, _ => None
  end.

(** ring.rs:90-104 *)
Definition ring_eq (h : heap F) (r t : ring) : bool :=
  match r, t with
  | RCircle a, RCircle b => circle_eq h a b
  | RSegments la, RSegments lb =>
      Nat.eqb (length la) (length lb) && forallb (fun p => seg_eq h (fst p) (snd p)) (combine la lb)
  | _, _ => false
  end.

(** geo::Polygon: exterior and interiors.  [Polygon::new] closes each line string (appends
    the first point unless it equals the last). *)
Record poly := mkPoly { ext : list (F * F); ints : list (list (F * F)) }.
Definition close_ls (l : list (F * F)) : list (F * F) :=
  match l with
  | [] => []
  | x :: _ => if v2eq x (last l x) then l else l ++ [x]
  end.
Definition poly_new (e : list (F * F)) (i : list (list (F * F))) : poly :=
  mkPoly (close_ls e) (map close_ls i).

(** ring.rs:55-87 *)
Definition circle_points (h : heap F) (c : circle F) : list (F * F) :=
  let p := pdata h (c_center c) in
  map (fun i => let angle := flit (Z.of_nat i) 0 /f flit 36 0 *f ftau in
                (fst p +f c_radius c *f fcos angle, snd p +f c_radius c *f fsin angle))
      (seq 0 36).
Definition ring_polygon (h : heap F) (r : ring) : poly :=
  match r with
  | RCircle c => poly_new (circle_points h c) []
  | RSegments l => poly_new (map (get_start h) l) []
  end.

(** face.rs:7-10 *)
Inductive face := Face (exterior : ring) (holes : list face).
Definition face_ext (f : face) : ring := match f with Face e _ => e end.
Definition face_holes (f : face) : list face := match f with Face _ hs => hs end.
(** face.rs:13-18, 20-22 *)
Definition face_from_ring (r : ring) : face := Face r [].
Definition add_hole (f hole : face) : face := Face (face_ext f) (face_holes f ++ [hole]).
(** face.rs:24-32: the interiors are the exteriors of the holes' polygons *)
Definition face_polygon (h : heap F) (f : face) : poly :=
  poly_new (ext (ring_polygon h (face_ext f)))
           (map (fun g => ext (poly_new (ext (ring_polygon h (face_ext g))) [])) (face_holes f)).

Section Geo.
(** geo's [bigger.contains(&smaller)], [poly.contains(&point)], [interior_point] *)
Variable contains_poly : poly -> poly -> bool.
Variable contains_point : poly -> F * F -> bool.
Variable interior_point : poly -> option (F * F).

(** decompose/mod.rs:90-99: the first later polygon containing this one, at its index in
    the slice [smaller+1..] *)
Fixpoint first_container (smaller : poly) (rest : list poly) (j : nat) : option nat :=
  match rest with
  | [] => None
  | b :: rest' => if contains_poly b smaller then Some j else first_container smaller rest' (S j)
  end.
(** decompose/mod.rs:85-100, pairs (bigger_index, smaller_index) *)
Definition what_contains_what (polys : list poly) : list (nat * nat) :=
  flat_map (fun p => match first_container (snd p) (skipn (fst p + 1) polys) 0 with
                     | Some j => [(j, fst p)]
                     | None => []
                     end)
    (combine (seq 0 (length polys - 1)) (firstn (length polys - 1) polys)).

(** decompose/mod.rs:103-107: indexing panics when out of bounds *)
Fixpoint attach_holes (faces : list face) (w : list (nat * nat)) : out (list face) :=
  match w with
  | [] => Val faces
  | (b, sm) :: w' =>
      match nth_error faces sm, nth_error faces b with
      | Some hole, Some f => attach_holes (lset faces b (add_hole f hole)) w'
      | _, _ => Panic
      end
  end.

(** decompose/mod.rs:72-110 *)
Definition find_faces (h : heap F) (s : sketch) : out (list face * list seg) :=
  let (rings, unused) := find_rings h s in
  let faces := map face_from_ring rings in
  match rings with
  | [] => Val (faces, unused)
  | _ =>
      match attach_holes faces (what_contains_what (map (ring_polygon h) rings)) with
      | Val fs => Val (fs, unused)
      | Panic => Panic
      end
  end.
(** decompose/mod.rs:18-26, sketch/mod.rs:369-371 *)
Definition get_faces (h : heap F) (s : sketch) : out (list face) :=
  match find_faces h s with Val p => Val (fst p) | Panic => Panic end.

(** decompose/mod.rs:37-57: indices of the faces to remove; [expect] panics on None *)
Fixpoint faces_to_remove (h : heap F) (olds : list poly) (i : nat) (fs : list face)
  : out (list nat) :=
  match fs with
  | [] => Val []
  | f :: fs' =>
      match interior_point (face_polygon h f) with
      | None => Panic
      | Some p =>
          match faces_to_remove h olds (S i) fs' with
          | Panic => Panic
          | Val r => Val (if existsb (fun o => contains_point o p) olds then r else i :: r)
          end
      end
  end.
(** [Vec::remove(i)] (panics out of bounds) *)
Fixpoint vec_remove {T} (l : list T) (i : nat) : out (list T) :=
  match l, i with
  | [], _ => Panic
  | _ :: l', O => Val l'
  | x :: l', S i' => match vec_remove l' i' with Val r => Val (x :: r) | Panic => Panic end
  end.
Fixpoint remove_all (fs : list face) (is : list nat) : out (list face) :=
  match is with
  | [] => Val fs
  | i :: is' => match vec_remove fs i with Val fs' => remove_all fs' is' | Panic => Panic end
  end.
(** decompose/mod.rs:28-70.  The indices are collected in ascending order, so the [sort]
    (line 60) is the identity; then they are reversed (line 61). *)
Definition merge_faces (h : heap F) (fs : list face) : out (list face) :=
  match faces_to_remove h (map (face_polygon h) fs) 0 fs with
  | Panic => Panic
  | Val is => remove_all fs (rev is)
  end.
(** sketch/mod.rs:373-375 *)
Definition get_merged_faces (h : heap F) (s : sketch) : out (list face) :=
  match get_faces h s with Val fs => merge_faces h fs | Panic => Panic end.
End Geo.
End Decomp.
Arguments seg : clear implicits.
Arguments ring : clear implicits.
Arguments poly : clear implicits.
Arguments face : clear implicits.
