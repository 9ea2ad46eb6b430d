(** * Vocabulary of the decomposition properties *)
From Coq Require Import List ZArith NArith Arith Bool.
From Verif Require Import Arith Vec Prim Cons Sketch Decomp Spec.
Import ListNotations.

Section DecompSpec.
Context {F : Type} {A : Arith F}.

(** the segment of a line or arc cell *)
Definition seg_of (h : heap F) (c : pcell) : option (seg F) :=
  match c with PLine l => Some (SLine (getL h l)) | PArc l => Some (SArc (getA h l)) | _ => None end.
(** the lines and arcs of a sketch, in id order *)
Definition forward (h : heap F) (s : sketch) : list (seg F) :=
  flat_map (fun kp => match seg_of h (snd kp) with Some g => [g] | None => [] end) (s_prims s).
(** both directions of each *)
Definition directed (h : heap F) (s : sketch) : list (seg F) :=
  forward h s ++ map seg_reverse (forward h s).
Definition circles (h : heap F) (s : sketch) : list (circle F) :=
  flat_map (fun kp => match snd kp with PCircle l => [getC h l] | _ => [] end) (s_prims s).

(** each segment starts where its predecessor ends ([==] of the coordinates) *)
Fixpoint chain (h : heap F) (l : list (seg F)) : Prop :=
  match l with
  | x :: (y :: _) as t => v2eq (get_end h x) (get_start h y) = true /\ chain h t
  | _ => True
  end.
Definition closed_chain (h : heap F) (l : list (seg F)) : Prop :=
  exists x t, l = x :: t /\ chain h l /\ v2eq (get_end h (last l x)) (get_start h x) = true.

Definition ring_segs (r : ring F) : list (seg F) :=
  match r with RSegments l => l | RCircle _ => [] end.

(** ** The walks *)
(** [g], at position [j] of the directed segments [D], may continue a walk after [cur]: it is
    not used, starts where [cur] ends and is neither [cur] nor its reverse *)
Definition candidate (h : heap F) (D : list (seg F)) (used : list nat) (cur : seg F) (j : nat) (g : seg F) : Prop :=
  nth_error D j = Some g /\ ~ In j used /\ v2eq (get_end h cur) (get_start h g) = true /\
  seg_eq h g cur = false /\ seg_eq h g (seg_reverse cur) = false.
(** how far left one turns from [cur] into [g]: the counter-clockwise angle from the direction
    back along [cur] to the direction of [g] *)
Definition turn_angle (h : heap F) (cur g : seg F) : F :=
  angle_difference (frem (seg_end_angle h cur +f fpi) (f2 *f fpi)) (seg_start_angle h g).
(** [j] is the candidate with the largest turn angle, the last one of equals *)
Definition leftmost (h : heap F) (D : list (seg F)) (used : list nat) (cur : seg F) (j : nat) : Prop :=
  exists g, candidate h D used cur j g /\
    forall k g', candidate h D used cur k g' ->
      (k < j -> fgt (turn_angle h cur g') (turn_angle h cur g) = false) /\
      (j < k -> fgt (turn_angle h cur g) (turn_angle h cur g') = true).
(** the walk from position [i] that always turns leftmost and stops at the first segment ending in [p0] *)
Inductive ring_walk (h : heap F) (D : list (seg F)) (used : list nat) (p0 : F * F) : nat -> list nat -> Prop :=
| rw_end i g : nth_error D i = Some g -> v2eq (get_end h g) p0 = true -> ring_walk h D used p0 i [i]
| rw_step i g j w : nth_error D i = Some g -> v2eq (get_end h g) p0 = false ->
    leftmost h D used g j -> ring_walk h D used p0 j w -> ring_walk h D used p0 i (i :: w).
(** the walks found from the first [m] positions: a position on no earlier walk starts a new
    one, which is kept if it gets back to its start and does not consist of all of [D] *)
Inductive all_walks (h : heap F) (D : list (seg F)) : nat -> list (list nat) -> Prop :=
| aw_nil : all_walks h D 0 []
| aw_used m ws : all_walks h D m ws -> In m (concat ws) -> all_walks h D (S m) ws
| aw_dead m ws g : all_walks h D m ws -> ~ In m (concat ws) -> nth_error D m = Some g ->
    (forall w, ring_walk h D (concat ws) (get_start h g) m w -> length D <= length w) ->
    all_walks h D (S m) ws
| aw_ring m ws g w : all_walks h D m ws -> ~ In m (concat ws) -> nth_error D m = Some g ->
    ring_walk h D (concat ws) (get_start h g) m w -> length w < length D ->
    all_walks h D (S m) (ws ++ [w]).
(** the segments at the given positions *)
Definition at_positions (D : list (seg F)) (w : list nat) : list (seg F) :=
  flat_map (fun i => match nth_error D i with Some g => [g] | None => [] end) w.
Definition no_nan (x : F) : Prop := feq x x = true.
(** the turn angles between segments of the sketch are numbers *)
Definition turns_ok (h : heap F) (D : list (seg F)) : Prop :=
  forall a b, In a D -> In b D -> no_nan (turn_angle h a b).
(** ** Polygons *)
(** [j] comes after [i] in the cyclic order of [w] *)
Definition follows (w : list nat) (i j : nat) : Prop :=
  (exists a b, w = a ++ i :: j :: b) \/ (exists a, w = j :: a ++ [i]).
(** the position of the other direction of a segment ([n]: number of segments of the sketch) *)
Definition opposite (n i : nat) : nat := if i <? n then i + n else i - n.
(** The directed lines at the positions [w] are the edges of a polygon with at least three, pairwise
    different corners, and no other segment of the sketch has an end at one of them. *)
Record isolated_polygon (h : heap F) (s : sketch) (w : list nat) : Prop := {
  ip_size : 3 <= length w;
  ip_nodup : NoDup w;
  ip_lines : forall i, In i w -> exists l, nth_error (directed h s) i = Some (SLine l) /\ seg_eq h (SLine l) (SLine l) = true;
  ip_closed : forall i j g g', follows w i j -> nth_error (directed h s) i = Some g -> nth_error (directed h s) j = Some g' ->
    v2eq (get_end h g) (get_start h g') = true;
  ip_corners : forall i j g g', In i w -> In j w -> nth_error (directed h s) i = Some g -> nth_error (directed h s) j = Some g' ->
    v2eq (get_start h g) (get_start h g') = true -> i = j;
  ip_alone : forall i j m g g', follows w i j -> nth_error (directed h s) m = Some g -> nth_error (directed h s) j = Some g' ->
    v2eq (get_start h g) (get_start h g') = true -> m = j \/ m = opposite (length (forward h s)) i }.
(** [==] is symmetric and transitive *)
Definition eq_laws : Prop := forall a b c : F,
  (feq a b = true -> feq b a = true) /\ (feq a b = true -> feq b c = true -> feq a c = true).
End DecompSpec.
