(** * C35 - C46, C51 - C54: rings, faces and merging *)
From Coq Require Import List ZArith NArith Arith Bool Lia Sorted Permutation Reals Lra Floats.SpecFloat.
From Verif Require Import Arith Vec Prim Cons Sketch Solve Decomp Api Spec ArithR ArithF ExactSpec DecompSpec
  SpecLemmas ExactLemmas DecompLemmas OrderLemmas WalkLemmas FaceLemmas OctLemmas ExactDecomp PolygonLemmas PolygonExact GeomLemmas
  DecompForms RingPolyLemmas TangentLemmas DecompWitness DecompExamples.
Import ListNotations.

(** In exact arithmetic, finite data and registered references (C01, C49) give the hypothesis
    [geo_finite] of the theorems below: the data of every registered primitive and of the points
    it refers to are finite. *)
Theorem finite_geometry : forall (h : heap xR) (s : sketch), refs_closed h s -> finite_data h s -> geo_finite h s.
Proof. exact finite_geo. Qed.

(** ** C35: rings are closed chains of segments of the sketch *)
Theorem C35 : forall {F} {A : Arith F} (h : heap F) (s : sketch) (r : ring F), valid h s -> In r (fst (find_rings h s)) ->
  match r with
  | RCircle c => exists l, registered s (PCircle l) /\ c = getC h l
  | RSegments l => closed_chain h l /\
      forall g, In g l -> exists c g0, registered s c /\ seg_of h c = Some g0 /\ (g = g0 \/ g = seg_reverse g0)
  end.
Proof. exact @C35_form. Qed.
(** a ring comes back to its start only at the end *)
Theorem C35_once : forall {F} {A : Arith F} (h : heap F) (s : sketch) l g,
  In (RSegments (l ++ [g])) (fst (find_rings h s)) ->
  forall x y t, l = y :: t -> In x l -> v2eq (get_end h x) (get_start h y) = false.
Proof. exact @start_once. Qed.
Example C35_ex : In left_sq (fst (find_rings two_heap two_sketch)).
Proof. rewrite two_rings. now left. Qed.

(** ** C36: each direction of each line or arc is used at most once *)
Theorem C36 : forall {F} {A : Arith F} (h : heap F) (s : sketch),
  exists rest, Permutation (flat_map ring_segs (fst (find_rings h s)) ++ rest) (forward h s ++ map seg_reverse (forward h s)).
Proof. exact @C36_lemma. Qed.
(** the middle edge of the two squares is used once in each direction *)
Example C36_ex : flat_map ring_segs (fst (find_rings two_heap two_sketch)) =
  [ln 0 1; ln 1 2; ln 2 3; ln 3 0; ln 1 4; ln 4 5; ln 5 2; ln 2 1].
Proof. rewrite two_rings. reflexivity. Qed.

(** ** C37, C38: which rings are found, their order, and the unused segments *)
(** [all_walks] (DecompSpec) describes the walks without reference to the code: from each position
    on no earlier walk one goes on to the leftmost unused continuation until one is back.  There is
    exactly one such list of walks [ws]; the rings are the walks and the circles of positive area in
    stable ascending order; the unused segments are the forward positions on no walk. *)
Definition rings_spec {F} {A : Arith F} (h : heap F) (s : sketch) (ws : list (list nat)) : Prop :=
  let D := forward h s ++ map seg_reverse (forward h s) in
  all_walks h D (length D) ws /\
  (forall ws', all_walks h D (length D) ws' -> ws' = ws) /\
  let found := map (fun w => RSegments (at_positions D w)) ws ++ map RCircle (circles h s) in
  let positive := filter (fun r => fgt (signed_area h r) f0) found in
  Permutation (fst (find_rings h s)) positive /\
  StronglySorted (fun a b => ftle (signed_area h a) (signed_area h b) = true) (fst (find_rings h s)) /\
  (forall k, let same r := ftle (signed_area h r) k && ftle k (signed_area h r) in
     filter same (fst (find_rings h s)) = filter same positive) /\
  snd (find_rings h s) = flat_map (fun i => if existsb (Nat.eqb i) (concat ws) then [] else at_positions (forward h s) [i])
                           (seq 0 (length (forward h s))).
Theorem C37_C38_exact : forall (h : heap xR) (s : sketch), valid h s -> geo_finite h s -> exists ws, rings_spec h s ws.
Proof. intros h s V G. exact (C37_lemma total_order_R strict_weak_R h s (geo_turns_ok h s V G)). Qed.
(** binary64: provided no turn angle is NaN *)
Theorem C37_C38_binary64 : forall (L : libm) (h : heap spec_float) (s : sketch),
  @turns_ok _ (ArithF L) h (@directed _ (ArithF L) h s) -> exists ws, @rings_spec _ (ArithF L) h s ws.
Proof. intros L. exact (@C37_lemma _ (ArithF L) (total_order_F L) (strict_weak_F L)). Qed.
(** a circle is a ring iff its radius is not zero *)
Theorem C37_circle : forall (h : heap xR) (s : sketch) l, valid h s -> geo_finite h s -> registered s (PCircle l) ->
  (In (RCircle (getC h l)) (fst (find_rings h s)) <-> c_radius (getC h l) <> Fin 0).
Proof. exact C37_circle_lemma. Qed.
Example C37_ex : valid two_heap two_sketch /\ geo_finite two_heap two_sketch /\ find_rings two_heap two_sketch = ([left_sq; right_sq], []).
Proof. exact (conj two_valid (conj two_finite two_rings)). Qed.
Example C37_circle_ex : registered cc_sketch (PCircle 1) /\ valid cc_heap cc_sketch /\ geo_finite cc_heap cc_sketch /\
  find_rings cc_heap cc_sketch = ([cc_small; cc_big], []).
Proof. split; [exists 2%N; simpl; auto|]. exact (conj cc_valid (conj cc_finite cc_rings)). Qed.
(** the binary64 hypothesis: a triangle (DecompExamples), with a libm whose [atan2] answers 0 *)
Example C37_binary64_ex : @turns_ok _ (ArithF zlibm) tri_heap (@directed _ (ArithF zlibm) tri_heap tri_sketch) /\
  fst (@find_rings _ (ArithF zlibm) tri_heap tri_sketch) = [RSegments [SLine (mkLine 0 1); SLine (mkLine 1 2); SLine (mkLine 2 0)]].
Proof.
  split; [|vm_compute; reflexivity]. intros a b Ha Hb. simpl in Ha, Hb.
  repeat (destruct Ha as [<-|Ha]; [repeat (destruct Hb as [<-|Hb]; [vm_compute; reflexivity|]); destruct Hb|]). destruct Ha.
Qed.
(** unused segments: all lines of the square with two inward whiskers *)
Example C38_ex : snd (find_rings wh_heap wh_sketch) = [ln 0 1; ln 1 2; ln 2 3; ln 3 0; ln 0 4; ln 2 5].
Proof. now rewrite wh_rings. Qed.

(** ** C39: faces are one per ring, and face construction cannot fail *)
Theorem C39 : forall {F} {A : Arith F} (contains_poly : poly F -> poly F -> bool) (h : heap F) (s : sketch),
  exists fs, get_faces contains_poly h s = Val fs /\ map face_ext fs = fst (find_rings h s).
Proof. exact @C39_lemma. Qed.
(** with the faces come the segments that are on no walk (C38) *)
Theorem C39_unused : forall {F} {A : Arith F} (contains_poly : poly F -> poly F -> bool) (h : heap F) (s : sketch),
  exists fs, find_faces contains_poly h s = Val (fs, snd (find_rings h s)) /\ get_faces contains_poly h s = Val fs.
Proof. exact @C39_unused_lemma. Qed.
Example C39_ex : map face_ext [Face cc_small [Face cc_small []]; Face cc_big []] = fst (find_rings cc_heap cc_sketch).
Proof. now rewrite cc_rings. Qed.

(** ** C40: holes.  The full statement is false *)
(** Two concentric circles: whatever the containment test, as long as it says that the larger
    circle's polygon contains the smaller's, the small face is its own hole and the large face,
    which does contain it, has no hole. *)
Theorem C40_refuted : exists ops rets (h : heap xR) s small big, run xp init ops rets (h, s) /\
  find_rings h s = ([small; big], []) /\ signed_area h small = Fin PI /\ signed_area h big = Fin (4 * PI) /\
  forall contains_poly, contains_poly (ring_polygon h big) (ring_polygon h small) = true ->
    get_faces contains_poly h s = Val [Face small [Face small []]; Face big []].
Proof.
  exists cc_ops, [RetLoc 0; RetLoc 0; RetLoc 1; RetId 1%N; RetId 2%N], cc_heap, cc_sketch, cc_small, cc_big.
  split; [exact cc_run|]. split; [exact cc_rings|]. split; [simpl; f_equal; lra|]. split; [simpl; f_equal; lra|]. exact cc_faces.
Qed.
(** What holds instead: the face at position [b] gets as holes exactly the rings [i] whose first
    container, among the larger rings, is at position [i + 1 + b] - the container found is right, the
    face it is given to is the wrong one ([i + 1] places too early).  Missing for the full statement:
    that position [b] is the container, which never is the case. *)
Theorem C40_partial : forall {F} {A : Arith F} (contains_poly : poly F -> poly F -> bool) (h : heap F) (s : sketch) fs,
  get_faces contains_poly h s = Val fs ->
  let rings := fst (find_rings h s) in
  forall b f, nth_error fs b = Some f -> forall r, In r (map face_ext (face_holes f)) <->
    exists i c, nth_error rings i = Some r /\ nth_error rings (i + 1 + b) = Some c /\
      contains_poly (ring_polygon h c) (ring_polygon h r) = true /\
      forall m d, i < m < i + 1 + b -> nth_error rings m = Some d -> contains_poly (ring_polygon h d) (ring_polygon h r) = false.
Proof. exact @C40_lemma. Qed.
Example C40_partial_ex : get_faces (fun _ _ => true) cc_heap cc_sketch = Val [Face cc_small [Face cc_small []]; Face cc_big []].
Proof. exact (cc_faces _ eq_refl). Qed.

(** ** C41: merging.  The full statement is false *)
(** Two squares with a common edge: for every containment test for polygons that does not claim
    one contains the other, and every interior point function that is right, the two faces come
    back unmerged. *)
Theorem C41_refuted : exists ops rets (h : heap xR) s l r, run xp init ops rets (h, s) /\
  find_rings h s = ([l; r], []) /\ adjacent_edges h l r = Some ([1], [3]) /\
  forall contains_poly contains_point interior_point, contains_poly (ring_polygon h r) (ring_polygon h l) = false ->
    (forall p : poly xR, exists x, interior_point p = Some x /\ contains_point p x = true) ->
    get_merged_faces contains_poly contains_point interior_point h s = Val [Face l []; Face r []].
Proof.
  exists (pt_ops sq_pts ++ ln_ops sq_lns), (map RetLoc (seq 0 6) ++ map RetLoc (seq 0 7)), two_heap, two_sketch, left_sq, right_sq.
  split; [exact two_run|]. split; [exact two_rings|]. split; [exact two_adjacent|]. exact two_unmerged.
Qed.
(** What [merge_faces] does: it keeps the faces whose interior point lies in the polygon of some face
    of the list, in order - all of them when the interior points are right.  Missing: any merging. *)
Theorem C41_partial : forall {F} {A : Arith F} contains_point interior_point (h : heap F) (fs : list (face F)),
  (forall f, In f fs -> interior_point (face_polygon h f) <> None) ->
  let located f := match interior_point (face_polygon h f) with
                   | Some p => existsb (fun o => contains_point o p) (map (face_polygon h) fs)
                   | None => true
                   end in
  merge_faces contains_point interior_point h fs = Val (filter located fs).
Proof. exact @C41_lemma. Qed.
Theorem C41_identity : forall {F} {A : Arith F} contains_point interior_point (h : heap F) (fs : list (face F)),
  (forall f, In f fs -> exists p, interior_point (face_polygon h f) = Some p /\ contains_point (face_polygon h f) p = true) ->
  merge_faces contains_point interior_point h fs = Val fs.
Proof. exact @C41_id_lemma. Qed.
(** it panics iff some face has no interior point *)
Theorem C41_panic : forall {F} {A : Arith F} contains_point interior_point (h : heap F) (fs : list (face F)),
  merge_faces contains_point interior_point h fs = Panic <-> exists f, In f fs /\ interior_point (face_polygon h f) = None.
Proof. exact @C41_panic_lemma. Qed.
(** [get_merged_faces] merges what [get_faces] returns *)
Theorem C41_from_faces : forall {F} {A : Arith F} contains_poly contains_point interior_point (h : heap F) (s : sketch),
  exists fs, get_faces contains_poly h s = Val fs /\
    get_merged_faces contains_poly contains_point interior_point h s = merge_faces contains_point interior_point h fs.
Proof. exact @merged_from_faces. Qed.
(** an interior point function that answers a face's first corner, a point test that wants it at the origin: the
    right square goes, the left one stays *)
Example C41_partial_ex :
  let ip := (fun p : poly xR => hd_error (ext p)) in let cpt := (fun (_ : poly xR) x => v2eq x (qz 0, qz 0)) in
  (forall f, In f [Face left_sq []; Face right_sq []] -> ip (face_polygon two_heap f) <> None) /\
  merge_faces cpt ip two_heap [Face left_sq []; Face right_sq []] = Val [Face left_sq []].
Proof. exact two_first_corner. Qed.

(** ** C42: reversal *)
Theorem C42_ends : forall {F} {A : Arith F} (h : heap F) (g : seg F),
  get_start h (seg_reverse g) = get_end h g /\ get_end h (seg_reverse g) = get_start h g /\
  get_start h (seg_reverse (seg_reverse g)) = get_start h g /\ get_end h (seg_reverse (seg_reverse g)) = get_end h g.
Proof. intros F A h [l|a]; repeat split. Qed.
(** reversing a line swaps its points; reversing an arc swaps its angles, flips the direction flag and
    forgets the cached gradient; twice is the identity up to that *)
Theorem C42_involution : forall {F} {A : Arith F} (g : seg F),
  match g with
  | SLine l => seg_reverse g = SLine (mkLine (l_end l) (l_start l)) /\ seg_reverse (seg_reverse g) = g
  | SArc a => seg_reverse g = SArc (mkArc (a_center a) (a_radius a) (a_ea a) (a_sa a) f0 f0 f0 (negb (a_cw a))) /\
      seg_reverse (seg_reverse g) = SArc (mkArc (a_center a) (a_radius a) (a_sa a) (a_ea a) f0 f0 f0 (a_cw a))
  end.
Proof. exact @reverse_shape. Qed.
(** reversing a ring: still a closed chain, and the signed area is negated *)
Theorem C42_ring : forall (h : heap xR) (l : list (seg xR)), closed_chain h l -> closed_chain h (map seg_reverse (rev l)).
Proof. exact (closed_reverse eq_laws_R). Qed.
Theorem C42_ring_binary64 : forall (L : libm) (h : heap spec_float) (l : list (seg spec_float)),
  @closed_chain _ (ArithF L) h l -> @closed_chain _ (ArithF L) h (map (@seg_reverse _ (ArithF L)) (rev l)).
Proof. intros L. exact (@closed_reverse _ (ArithF L) (eq_laws_F L)). Qed.
Theorem C42_area : forall (h : heap xR) (l : list (seg xR)), Forall (seg_fin h) l ->
  signed_area h (RSegments (map seg_reverse (rev l))) = fneg (signed_area h (RSegments l)) /\
  signed_area h (RSegments l) = Fin (shoelace h l).
Proof. intros h l H. exact (conj (C42_area_lemma h l H) (area_R h l H)). Qed.
(** the direction of a line turns by half a turn *)
Theorem C42_direction : forall (h : heap xR) l, from_pt h (SLine l) <> to_pt h (SLine l) ->
  exists k, direction h (seg_reverse (SLine l)) = (direction h (SLine l) + PI + 2 * PI * IZR k)%R.
Proof. exact C42_direction_lemma. Qed.
Example C42_ex : closed_chain two_heap (ring_segs left_sq) /\ Forall (seg_fin two_heap) (ring_segs left_sq) /\
  signed_area two_heap left_sq = Fin 16 /\ from_pt two_heap (ln 0 1) <> to_pt two_heap (ln 0 1).
Proof. exact left_area. Qed.

(** ** C43: find_rings and cached gradients.  The full statement is false *)
(** An arc whose two end points nothing else touches and a line elsewhere: before get_gradient both
    are unused; get_gradient changes no data, but afterwards the arc and its reversal (whose cached
    gradient is reset) no longer count as the same, and the arc is on a ring of its own there and back. *)
Theorem C43_refuted : exists ops rets (h h' : heap xR) s v, run xp init ops rets (h, s) /\
  get_gradient s h = (h', Val v) /\
  (forall c, prim_data h' c = prim_data h c) /\
  length (snd (find_rings h s)) = 2 /\ length (snd (find_rings h' s)) = 1.
Proof. exact gr_refutes. Qed.
(** What holds: the rings depend on the points only through their coordinates and on circles only
    through centre and radius - any arithmetic - as long as different points have different
    coordinates, no NaN is cached and the arcs are unchanged.  Missing: changed arc gradients, and
    coincident points with different gradients. *)
Theorem C43_partial : forall {F} {A : Arith F} (h h' : heap F) (s : sketch), valid h s ->
  same_geometry h h' -> points_apart h s -> points_apart h' s ->
  map ring_shape (fst (find_rings h' s)) = map ring_shape (fst (find_rings h s)) /\
  snd (find_rings h' s) = snd (find_rings h s).
Proof. exact @C43_lemma. Qed.
(** the single square with gradients cached in a corner *)
Example C43_partial_ex : let h' := setP one_heap 0 (mkPoint (qz 0) (qz 0) (qz 7) (qz 5)) in
  same_geometry one_heap h' /\ points_apart one_heap one_sketch /\ points_apart h' one_sketch /\ h' <> one_heap.
Proof. exact one_cached. Qed.

(** ** C44: angle_difference *)
Theorem C44 : forall a0 a1, (- (2 * PI) <= a0 <= 4 * PI)%R -> (- (2 * PI) <= a1 <= 4 * PI)%R ->
  exists d k, angle_difference (Fin a0) (Fin a1) = Fin d /\ (0 <= d <= 2 * PI)%R /\ d = (a1 - a0 + 2 * PI * IZR k)%R.
Proof. exact C44_lemma. Qed.
Example C44_ex : angle_difference (Fin (IZR 7 * (PI / 4))) (Fin (IZR 1 * (PI / 4))) = Fin (IZR 2 * (PI / 4)).
Proof. exact (oct_diff 7 1). Qed.

(** ** C45: polygons.  The full statement is false *)
(** A square with a line dangling inwards from each of two opposite corners: no ring is found. *)
Theorem C45_refuted : exists ops rets (h : heap xR) s l, run xp init ops rets (h, s) /\
  Forall (fun g => In g (forward h s)) l /\ closed_chain h l /\ signed_area h (RSegments l) = Fin 16 /\
  fst (find_rings h s) = [].
Proof. exact wh_refutes. Qed.
(** What holds: a polygon at whose corners no other segment ends is found, in one of its two
    directions and starting at some corner, with its enclosed area.  Missing: polygons with further
    segments at their corners. *)
Theorem C45_partial : forall (h : heap xR) (s : sketch) w, valid h s -> geo_finite h s -> isolated_polygon h s w ->
  let D := forward h s ++ map seg_reverse (forward h s) in shoelace h (at_positions D w) <> 0%R ->
  exists a b, (w = a ++ b \/ rev (map (opposite (length (forward h s))) w) = a ++ b) /\
    In (RSegments (at_positions D (b ++ a))) (fst (find_rings h s)) /\
    signed_area h (RSegments (at_positions D (b ++ a))) = Fin (Rabs (shoelace h (at_positions D w))).
Proof. exact C45_exact. Qed.
(** the same in binary64: the walk around the polygon is found, and kept if its computed area is positive *)
Theorem C45_binary64_partial : forall (L : libm) (h : heap spec_float) (s : sketch) w, @isolated_polygon _ (ArithF L) h s w ->
  let D := @forward _ (ArithF L) h s ++ map (@seg_reverse _ (ArithF L)) (@forward _ (ArithF L) h s) in
  exists a b, w = a ++ b /\
    (@fgt _ (ArithF L) (@signed_area _ (ArithF L) h (RSegments (at_positions D (b ++ a)))) (@f0 _ (ArithF L)) = true ->
     In (RSegments (at_positions D (b ++ a))) (fst (@find_rings _ (ArithF L) h s))).
Proof. intros L h s w. exact (@polygon_found _ (ArithF L) (eq_laws_F L) h s w). Qed.
Example C45_partial_ex : isolated_polygon one_heap one_sketch [0; 1; 2; 3] /\
  shoelace one_heap (at_positions (forward one_heap one_sketch ++ map seg_reverse (forward one_heap one_sketch)) [0; 1; 2; 3]) = 16%R.
Proof. exact one_polygon. Qed.
Example C45_binary64_ex : @isolated_polygon _ (ArithF zlibm) tri_heap tri_sketch [0; 1; 2].
Proof. exact tri_polygon. Qed.

(** ** C46: regions bounded by arcs.  The full statement is false *)
(** Two half circles that close up to a full circle of radius 1: no ring is found. *)
Theorem C46_refuted : exists ops rets (h : heap xR) s a b, run xp init ops rets (h, s) /\
  forward h s = [SArc a; SArc b] /\ closed_chain h [SArc a; SArc b] /\
  a_center a = 0 /\ a_center b = 0 /\ a_radius a = Fin 1 /\ a_radius b = Fin 1 /\
  a_sa a = Fin 0 /\ a_ea a = Fin PI /\ a_sa b = Fin PI /\ a_ea b = Fin (2 * PI) /\
  fst (find_rings h s) = [].
Proof. exact ar_refutes. Qed.
(** Why: the area of a ring is that of the polygon through its corners, so that a ring has at least
    three segments.  Missing: any ring with two arcs. *)
Theorem C46_partial : forall (h : heap xR) (s : sketch) l, valid h s -> geo_finite h s -> In (RSegments l) (fst (find_rings h s)) ->
  3 <= length l /\ (0 < shoelace h l)%R /\ signed_area h (RSegments l) = Fin (shoelace h l).
Proof. exact ring_size_area. Qed.
Example C46_partial_ex : valid two_heap two_sketch /\ geo_finite two_heap two_sketch /\
  In (RSegments [ln 0 1; ln 1 2; ln 2 3; ln 3 0]) (fst (find_rings two_heap two_sketch)).
Proof. exact (conj two_valid (conj two_finite C35_ex)). Qed.

(** ** C51: at a corner the walk turns as far left as possible *)
(** The continuation chosen is the unused one with the largest turn angle (the last of equals)... *)
Theorem C51_next : forall (h : heap xR) (s : sketch), valid h s -> geo_finite h s ->
  let D := forward h s ++ map seg_reverse (forward h s) in forall cur used j g, In cur D ->
  (find_next_segment h D cur used = Some (j, g) <-> leftmost h D used cur j /\ nth_error D j = Some g).
Proof. intros h s V G D cur used j g H. exact (next_leftmost strict_weak_R h D used cur H (geo_turns_ok h s V G) j g). Qed.
Theorem C51_next_binary64 : forall (L : libm) (h : heap spec_float) (D : list (seg spec_float)) cur used j g,
  In cur D -> @turns_ok _ (ArithF L) h D ->
  (@find_next_segment _ (ArithF L) h D cur used = Some (j, g) <-> @leftmost _ (ArithF L) h D used cur j /\ nth_error D j = Some g).
Proof. intros L h D cur used j g H T. exact (@next_leftmost _ (ArithF L) (strict_weak_F L) h D used cur H T j g). Qed.
(** ... and between two lines the turn angle is the counter-clockwise angle from the way back along
    the first to the second. *)
Theorem C51_turn : forall (h : heap xR) l m, seg_fin h (SLine l) -> seg_fin h (SLine m) -> exists t k,
  turn_angle h (SLine l) (SLine m) = Fin t /\ (0 <= t <= 2 * PI)%R /\
  t = (direction h (SLine m) - (direction h (SLine l) + PI) + 2 * PI * IZR k)%R.
Proof. exact turn_lemma. Qed.
(** at corner 1 of the two squares, coming from corner 0, the walk turns up to corner 2, not on to corner 4 *)
Example C51_ex : find_next_segment two_heap (forward two_heap two_sketch ++ map seg_reverse (forward two_heap two_sketch)) (ln 0 1) [] = Some (1, ln 1 2).
Proof. exact two_next. Qed.

(** ** C52: polygons of rings and faces *)
(** a segment ring becomes the closed polygon through its corners *)
Theorem C52_segments : forall (h : heap xR) (s : sketch) l, valid h s -> geo_finite h s -> In (RSegments l) (fst (find_rings h s)) ->
  exists x t, l = x :: t /\ ring_polygon h (RSegments l) =
    mkPoly (map (fun g => (Fin (fst (from_pt h g)), Fin (snd (from_pt h g)))) (l ++ [x])) [].
Proof. exact segment_polygon_form. Qed.
(** a circle becomes the regular polygon with 36 corners on it *)
Theorem C52_circle : forall (h : heap xR) c x y r, pdata h (c_center c) = (Fin x, Fin y) -> c_radius c = Fin r -> r <> 0%R ->
  ring_polygon h (RCircle c) = mkPoly (map (fun k => (Fin (fst (corner x y r k)), Fin (snd (corner x y r k)))) (seq 0 36 ++ [0])) [] /\
  forall k, ((fst (corner x y r k) - x) ^ 2 + (snd (corner x y r k) - y) ^ 2 = r ^ 2)%R.
Proof. exact circle_polygon_form. Qed.
(** a face becomes the polygon of its exterior with the exteriors of its holes as interiors *)
Theorem C52_face : forall contains_poly (h : heap xR) (s : sketch) fs f, valid h s -> geo_finite h s ->
  get_faces contains_poly h s = Val fs -> In f fs ->
  face_polygon h f = mkPoly (ext (ring_polygon h (face_ext f))) (map (fun g => ext (ring_polygon h (face_ext g))) (face_holes f)).
Proof. exact face_polygon_lemma. Qed.
Example C52_ex : ring_polygon two_heap left_sq = mkPoly [(qz 0, qz 0); (qz 4, qz 0); (qz 4, qz 4); (qz 0, qz 4); (qz 0, qz 0)] [].
Proof. exact left_polygon. Qed.
Example C52_circle_ex : pdata cc_heap (c_center (Circle_new 0 (qz 2))) = (Fin 0, Fin 0) /\ c_radius (Circle_new 0 (qz 2)) = Fin 2 /\ 2%R <> 0%R.
Proof. split; [reflexivity|]. split; [reflexivity | lra]. Qed.

(** ** C53: adjacent_edges *)
(** the pairs of positions, in lexicographic order, of segments of which one is the other reversed;
    None if there is none *)
Theorem C53 : forall {F} {A : Arith F} (h : heap F) la lb, exists ps,
  StronglySorted (fun p q => fst p < fst q \/ (fst p = fst q /\ snd p < snd q)) ps /\
  (forall i j, In (i, j) ps <-> exists g g', nth_error la i = Some g /\ nth_error lb j = Some g' /\ seg_eq h g (seg_reverse g') = true) /\
  adjacent_edges h (RSegments la) (RSegments lb) = match ps with [] => None | _ => Some (map fst ps, map snd ps) end.
Proof. exact @adjacent_lemma. Qed.
Theorem C53_circle : forall {F} {A : Arith F} (h : heap F) c r, adjacent_edges h (RCircle c) r = None /\ adjacent_edges h r (RCircle c) = None.
Proof. intros F A h c [c'|l]; split; reflexivity. Qed.
Example C53_ex : adjacent_edges two_heap left_sq right_sq = Some ([1], [3]).
Proof. exact two_adjacent. Qed.

(** ** C54: the angles used for arcs.  The full statement is false *)
(** The angle at which an arc leaves its start is taken to be its polar angle [sa], not the direction
    of travel. *)
Theorem C54_refuted : exists ops rets (h : heap xR) s a, run xp init ops rets (h, s) /\ In (SArc a) (forward h s) /\
  a_radius a = Fin 1 /\ a_sa a = Fin 0 /\ a_cw a = false /\ exists t, seg_start_angle h (SArc a) = Fin t /\
  forall k, travel 1 0 false <> (t + 2 * PI * IZR k)%R.
Proof. exact travel_refutes. Qed.
(** What holds: it is a quarter turn off, to the right for counter-clockwise arcs and to the left for
    clockwise ones, at both ends.  Missing: the right direction. *)
Theorem C54_partial : forall (h : heap xR) a r, a_radius a = Fin r -> (0 < r)%R -> forall sa ea, a_sa a = Fin sa -> a_ea a = Fin ea ->
  exists t u k m, seg_start_angle h (SArc a) = Fin t /\ seg_end_angle h (SArc a) = Fin u /\
    travel r sa (a_cw a) = (t + (if a_cw a then - (PI / 2) else PI / 2) + 2 * PI * IZR k)%R /\
    travel r ea (a_cw a) = (u + (if a_cw a then - (PI / 2) else PI / 2) + 2 * PI * IZR m)%R.
Proof. exact travel_off. Qed.
Example C54_partial_ex : a_radius (getA ar_heap 0) = Fin 1 /\ a_sa (getA ar_heap 0) = Fin 0 /\ a_ea (getA ar_heap 0) = Fin PI.
Proof. repeat split. Qed.

Print Assumptions finite_geometry.
Print Assumptions C35.
Print Assumptions C35_once.
Print Assumptions C36.
Print Assumptions C37_C38_exact.
Print Assumptions C37_C38_binary64.
Print Assumptions C37_circle.
Print Assumptions C39.
Print Assumptions C39_unused.
Print Assumptions C40_refuted.
Print Assumptions C40_partial.
Print Assumptions C41_refuted.
Print Assumptions C41_partial.
Print Assumptions C41_identity.
Print Assumptions C41_panic.
Print Assumptions C41_from_faces.
Print Assumptions C42_ends.
Print Assumptions C42_involution.
Print Assumptions C42_ring.
Print Assumptions C42_ring_binary64.
Print Assumptions C42_area.
Print Assumptions C42_direction.
Print Assumptions C43_refuted.
Print Assumptions C43_partial.
Print Assumptions C44.
Print Assumptions C45_refuted.
Print Assumptions C45_partial.
Print Assumptions C45_binary64_partial.
Print Assumptions C46_refuted.
Print Assumptions C46_partial.
Print Assumptions C51_next.
Print Assumptions C51_next_binary64.
Print Assumptions C51_turn.
Print Assumptions C52_segments.
Print Assumptions C52_circle.
Print Assumptions C52_face.
Print Assumptions C53.
Print Assumptions C53_circle.
Print Assumptions C54_refuted.
Print Assumptions C54_partial.
