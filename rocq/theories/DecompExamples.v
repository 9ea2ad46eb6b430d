(** * Facts about the concrete sketches used in PropsDecomp *)
From Coq Require Import List ZArith NArith Arith Bool Lia Sorted Permutation Reals Lra Floats.SpecFloat.
From Verif Require Import Arith Vec Prim Cons Sketch Solve Decomp Api Spec ArithR ArithF ExactSpec DecompSpec
  HeapLemmas PureLemmas SpecLemmas ExactLemmas DecompLemmas OrderLemmas WalkLemmas FaceLemmas OctLemmas ExactDecomp PolygonLemmas PolygonExact GeomLemmas
  DecompForms RingPolyLemmas TangentLemmas DecompWitness.
Import ListNotations.

(** two unit-width squares sharing an edge, built by the API; finite geometry *)
Lemma two_valid : valid two_heap two_sketch.
Proof. exact (reachable_valid xp _ _ _ two_run eq_refl). Qed.
Lemma two_finite : geo_finite two_heap two_sketch.
Proof.
  intros c Hc. apply (valid_reg _ _ _ two_valid) in Hc. simpl in Hc.
  repeat (destruct Hc as [<-|Hc]; [split; [reflexivity|]; intros r Hr; simpl in Hr; repeat (destruct Hr as [<-|Hr]; [reflexivity|]); destruct Hr|]). destruct Hc.
Qed.
(** a single square *)
Definition one_pts : list (Z * Z) := [(0, 0); (4, 0); (4, 4); (0, 4)]%Z.
Definition one_lns : list (nat * nat) := [(0, 1); (1, 2); (2, 3); (3, 0)].
Definition one_heap : heap xR := oct_heap one_pts one_lns.
Definition one_sketch : sketch := oct_sketch one_pts one_lns.
Lemma one_run : run xp init (pt_ops one_pts ++ ln_ops one_lns) (map RetLoc (seq 0 4) ++ map RetLoc (seq 0 4)) (one_heap, one_sketch).
Proof. cbn [pt_ops ln_ops map app one_pts one_lns seq fst snd]. goD. Qed.
Lemma one_valid : valid one_heap one_sketch.
Proof. exact (reachable_valid xp _ _ _ one_run eq_refl). Qed.
Lemma one_finite : geo_finite one_heap one_sketch.
Proof.
  intros c Hc. apply (valid_reg _ _ _ one_valid) in Hc. simpl in Hc.
  repeat (destruct Hc as [<-|Hc]; [split; [reflexivity|]; intros r Hr; simpl in Hr; repeat (destruct Hr as [<-|Hr]; [reflexivity|]); destruct Hr|]). destruct Hc.
Qed.
Lemma cc_valid : valid cc_heap cc_sketch.
Proof. exact (reachable_valid xp _ _ _ cc_run eq_refl). Qed.
Lemma cc_finite : geo_finite cc_heap cc_sketch.
Proof.
  intros c Hc. apply (valid_reg _ _ _ cc_valid) in Hc. simpl in Hc.
  repeat (destruct Hc as [<-|Hc]; [split; [reflexivity|]; intros r Hr; simpl in Hr; repeat (destruct Hr as [<-|Hr]; [reflexivity|]); destruct Hr|]). destruct Hc.
Qed.

(** a triangle in binary64, with a libm whose functions answer 0 *)
Definition zlibm : libm := mkLibm (fun _ => S754_zero false) (fun _ => S754_zero false) (fun _ => S754_zero false) (fun _ _ => S754_zero false).
Definition tri_heap : heap spec_float :=
  mkHeap [@Point2_new _ (ArithF zlibm) (lit64 0 0) (lit64 0 0); @Point2_new _ (ArithF zlibm) (lit64 1 0) (lit64 0 0); @Point2_new _ (ArithF zlibm) (lit64 0 0) (lit64 1 0)]
    [mkLine 0 1; mkLine 1 2; mkLine 2 0] [] [] [].
Definition tri_sketch : sketch := mkSketch [(0%N, PPoint 0); (1%N, PPoint 1); (2%N, PPoint 2); (3%N, PLine 0); (4%N, PLine 1); (5%N, PLine 2)] 6%N [].
Lemma merged_from_faces {F} {A : Arith F} contains_poly contains_point interior_point (h : heap F) (s : sketch) :
  exists fs, get_faces contains_poly h s = Val fs /\
    get_merged_faces contains_poly contains_point interior_point h s = merge_faces contains_point interior_point h fs.
Proof. destruct (C39_lemma contains_poly h s) as (fs & E & _). exists fs. unfold get_merged_faces. now rewrite E. Qed.
Lemma reverse_shape {F} {A : Arith F} (g : seg F) :
  match g with
  | SLine l => seg_reverse g = SLine (mkLine (l_end l) (l_start l)) /\ seg_reverse (seg_reverse g) = g
  | SArc a => seg_reverse g = SArc (mkArc (a_center a) (a_radius a) (a_ea a) (a_sa a) f0 f0 f0 (negb (a_cw a))) /\
      seg_reverse (seg_reverse g) = SArc (mkArc (a_center a) (a_radius a) (a_sa a) (a_ea a) f0 f0 f0 (a_cw a))
  end.
Proof.
  destruct g as [[a b]|a]; split; try reflexivity. cbn [seg_reverse]. unfold Arc_reverse, Arc_new. cbn. now rewrite negb_involutive.
Qed.
Definition sqs := (sq_pts, sq_lns).
Lemma two_ok : zok sq_pts sq_lns = true. Proof. vm_compute. reflexivity. Qed.
Lemma two_adjacent : adjacent_edges two_heap left_sq right_sq = Some ([1], [3]).
Proof.
  unfold adjacent_edges, left_sq, right_sq. cbn [length seq combine flat_map fst snd app]. unfold reverse_equals. cbn [seg_reverse l_start l_end ln].
  assert (I : forall a b, In (a, b) (zD sq_lns) -> forall c d, In (c, d) (zD sq_lns) -> seg_eq two_heap (ln a b) (ln c d) = zsame sq_pts (a, b) (c, d)).
  { intros a b H c d H'. exact (seg_eq_oct _ _ two_ok (a, b) (c, d) H H'). }
  unfold ln in *. rewrite !I by (simpl; tauto). reflexivity.
Qed.
Lemma two_unmerged contains_poly contains_point interior_point : contains_poly (ring_polygon two_heap right_sq) (ring_polygon two_heap left_sq) = false ->
  (forall p : poly xR, exists x, interior_point p = Some x /\ contains_point p x = true) ->
  get_merged_faces contains_poly contains_point interior_point two_heap two_sketch = Val [Face left_sq []; Face right_sq []].
Proof.
  intros H I. unfold get_merged_faces. replace (get_faces contains_poly two_heap two_sketch) with (Val [Face left_sq []; Face right_sq []]).
  - apply C41_id_lemma. intros f _. apply I.
  - unfold get_faces, find_faces. rewrite two_rings. cbn [map]. unfold what_contains_what. cbn [length Nat.sub seq firstn combine flat_map fst snd Nat.add skipn first_container].
    rewrite H. reflexivity.
Qed.
Lemma two_first_corner :
  let ip := (fun p : poly xR => hd_error (ext p)) in let cpt := (fun (_ : poly xR) x => v2eq x (qz 0, qz 0)) in
  (forall f, In f [Face left_sq []; Face right_sq []] -> ip (face_polygon two_heap f) <> None) /\
  merge_faces cpt ip two_heap [Face left_sq []; Face right_sq []] = Val [Face left_sq []].
Proof.
  intros ip cpt.
  assert (E1 : ip (face_polygon two_heap (Face left_sq [])) = Some (qz 0, qz 0)).
  { unfold ip, face_polygon, ring_polygon, left_sq, poly_new, close_ls. cbn [face_ext face_holes map ext]. destruct (v2eq _ _); [destruct (v2eq _ _)|cbn [app]; destruct (v2eq _ _)]; reflexivity. }
  assert (E2 : ip (face_polygon two_heap (Face right_sq [])) = Some (qz 4, qz 0)).
  { unfold ip, face_polygon, ring_polygon, right_sq, poly_new, close_ls. cbn [face_ext face_holes map ext]. destruct (v2eq _ _); [destruct (v2eq _ _)|cbn [app]; destruct (v2eq _ _)]; reflexivity. }
  assert (N : forall f, In f [Face left_sq []; Face right_sq []] -> ip (face_polygon two_heap f) <> None).
  { intros f [<-|[<-|[]]]; [rewrite E1|rewrite E2]; discriminate. }
  split; auto. rewrite C41_lemma by auto. f_equal. unfold located. cbn [filter]. rewrite E1, E2. cbn [map existsb]. unfold cpt.
  change (v2eq (qz 0, qz 0) (qz 0, qz 0)) with (v2eq (rP (0, 0)%Z) (rP (0, 0)%Z)). change (v2eq (qz 4, qz 0) (qz 0, qz 0)) with (v2eq (rP (4, 0)%Z) (rP (0, 0)%Z)). rewrite !v2eq_oct. reflexivity.
Qed.

Lemma left_area : closed_chain two_heap (ring_segs left_sq) /\ List.Forall (seg_fin two_heap) (ring_segs left_sq) /\
  signed_area two_heap left_sq = Fin 16 /\ from_pt two_heap (ln 0 1) <> to_pt two_heap (ln 0 1).
Proof.
  assert (H : In left_sq (fst (find_rings two_heap two_sketch))) by (rewrite two_rings; now left).
  destruct (ring_size _ _ _ two_valid two_finite H) as (_ & _ & Fl). split; [exact (proj1 (C35_lemma _ _ _ H))|]. split; [exact Fl|].
  split; [|unfold from_pt, to_pt; simpl; intros [= E]; lra].
  replace left_sq with (zring sq_lns [0; 1; 2; 3]) by reflexivity. unfold two_heap. rewrite (area_oct _ _ two_ok); [|repeat constructor].
  replace (zarea sq_pts sq_lns [0; 1; 2; 3]) with 32%Z by reflexivity. apply (f_equal Fin). lra.
Qed.
Lemma gr_refutes : exists ops rets (h h' : heap xR) s v, run xp init ops rets (h, s) /\
  get_gradient s h = (h', Val v) /\
  (forall c, prim_data h' c = prim_data h c) /\
  length (snd (find_rings h s)) = 2 /\ length (snd (find_rings h' s)) = 1.
Proof.
  destruct gr_gradient as [v E]. exists gr_ops, [RetLoc 0; RetLoc 1; RetLoc 2; RetLoc 0; RetLoc 0; RetLoc 0], gr_heap, gr_after, gr_sketch, v.
  split; [exact gr_run|]. split; auto. split; [|rewrite gr_before_unused, gr_after_unused; auto].
  intros c. pose proof (proj1 (sdeq_iff _ _) (get_gradient_sd gr_sketch gr_heap)) as [Q1 Q2]. rewrite E in *. apply Q2.
Qed.
Lemma one_ok : zok one_pts one_lns = true. Proof. vm_compute. reflexivity. Qed.
Lemma one_cached : let h' := setP one_heap 0 (mkPoint (qz 0) (qz 0) (qz 7) (qz 5)) in
  same_geometry one_heap h' /\ points_apart one_heap one_sketch /\ points_apart h' one_sketch /\ h' <> one_heap.
Proof.
  intros h'. assert (SG : same_geometry one_heap h').
  { split; [reflexivity|]. split; [reflexivity|]. split; [|intros l; split; reflexivity]. intros [|[|[|[|[|l]]]]]; reflexivity. }
  assert (K : forall h, (h = one_heap \/ h = h') -> points_apart h one_sketch).
  { intros h Hh c c' p q Hc Hc' Hp Hq. apply (valid_reg _ _ _ one_valid) in Hc, Hc'.
    assert (Bp : In p [0; 1; 2; 3]) by (simpl in Hc; repeat (destruct Hc as [<-|Hc]; [destruct Hh; subst h; simpl in Hp; repeat (destruct Hp as [[= <-]|Hp]; [simpl; tauto|]); destruct Hp|]); destruct Hc).
    assert (Bq : In q [0; 1; 2; 3]) by (simpl in Hc'; repeat (destruct Hc' as [<-|Hc']; [destruct Hh; subst h; simpl in Hq; repeat (destruct Hq as [[= <-]|Hq]; [simpl; tauto|]); destruct Hq|]); destruct Hc').
    split.
    - simpl in Bp. repeat (destruct Bp as [<-|Bp]; [destruct Hh; subst h; apply point_eq_fin; repeat eexists; cbn; rewrite ?f0_R; reflexivity|]). destruct Bp.
    - assert (E : forall i, In i [0; 1; 2; 3] -> pdata h i = rP (zP one_pts i)).
      { intros i Hi. simpl in Hi. repeat (destruct Hi as [<-|Hi]; [destruct Hh; subst h; reflexivity|]). destruct Hi. }
      rewrite (E p Bp), (E q Bq), v2eq_oct. simpl in Bp, Bq.
      repeat (destruct Bp as [<-|Bp]; [repeat (destruct Bq as [<-|Bq]; [(reflexivity || discriminate)|]); destruct Bq|]). destruct Bp. }
  split; auto. split; [apply K; auto|]. split; [apply K; auto|]. intros E. apply (f_equal (fun h => p_gx (getP h 0))) in E. change (qz 7 = f0) in E. rewrite f0_R in E. injection E as E. lra.
Qed.
Lemma wh_ok : zok wh_pts wh_lns = true. Proof. vm_compute. reflexivity. Qed.
Lemma wh_refutes : exists ops rets (h : heap xR) s l, run xp init ops rets (h, s) /\
  List.Forall (fun g => In g (forward h s)) l /\ closed_chain h l /\ signed_area h (RSegments l) = Fin 16 /\
  fst (find_rings h s) = [].
Proof.
  exists (pt_ops wh_pts ++ ln_ops wh_lns), (map RetLoc (seq 0 6) ++ map RetLoc (seq 0 6)), wh_heap, wh_sketch, [ln 0 1; ln 1 2; ln 2 3; ln 3 0].
  split; [exact wh_run|]. split; [repeat constructor; simpl; tauto|]. split; [|split; [|now rewrite wh_rings]].
  - exists (ln 0 1), [ln 1 2; ln 2 3; ln 3 0]. split; auto. cbn [last chain].
    repeat split; apply v2eq_fin_refl.
  - change (RSegments _) with (zring wh_lns [0; 1; 2; 3]). unfold wh_heap. rewrite (area_oct _ _ wh_ok); [|repeat constructor].
    replace (zarea wh_pts wh_lns [0; 1; 2; 3]) with 32%Z by reflexivity. apply (f_equal Fin). lra.
Qed.

Lemma one_polygon : isolated_polygon one_heap one_sketch [0; 1; 2; 3] /\
  shoelace one_heap (at_positions (forward one_heap one_sketch ++ map seg_reverse (forward one_heap one_sketch)) [0; 1; 2; 3]) = 16%R.
Proof.
  split; [apply zpoly_sound; [exact one_ok | vm_compute; reflexivity]|]. unfold shoelace, crossR, from_pt, to_pt. simpl. lra.
Qed.
Lemma tri_polygon : @isolated_polygon _ (ArithF zlibm) tri_heap tri_sketch [0; 1; 2].
Proof.
  constructor.
  - auto.
  - repeat constructor; simpl; intuition discriminate.
  - intros i [<-|[<-|[<-|[]]]]; eexists; (split; [reflexivity | vm_compute; reflexivity]).
  - intros i j g g' Fo Hi Hj. apply follows_combine in Fo. simpl in Fo.
    destruct Fo as [[= <- <-]|[[= <- <-]|[[= <- <-]|[]]]]; cbn in Hi, Hj; apply some_inj in Hi, Hj; subst g g'; vm_compute; reflexivity.
  - intros i j g g' Wi Wj Hi Hj. destruct Wi as [<-|[<-|[<-|[]]]], Wj as [<-|[<-|[<-|[]]]]; auto; cbn in Hi, Hj; apply some_inj in Hi, Hj; subst g g'; intros H; vm_compute in H; discriminate.
  - intros i j m g g' Fo Hm Hj. apply follows_combine in Fo. simpl in Fo.
    destruct Fo as [[= <- <-]|[[= <- <-]|[[= <- <-]|[]]]]; do 6 (destruct m as [|m]; [cbn in Hm, Hj; apply some_inj in Hm, Hj; subst g g'; intros H; vm_compute in H; try discriminate; cbn; auto|]);
      cbn in Hm; destruct m; discriminate.
Qed.
Lemma ar_refutes : exists ops rets (h : heap xR) s a b, run xp init ops rets (h, s) /\
  forward h s = [SArc a; SArc b] /\ closed_chain h [SArc a; SArc b] /\
  a_center a = 0 /\ a_center b = 0 /\ a_radius a = Fin 1 /\ a_radius b = Fin 1 /\
  a_sa a = Fin 0 /\ a_ea a = Fin PI /\ a_sa b = Fin PI /\ a_ea b = Fin (2 * PI) /\
  fst (find_rings h s) = [].
Proof.
  exists ar_ops, [RetLoc 0; RetLoc 0; RetLoc 1], ar_heap, ar_sketch, (getA ar_heap 0), (getA ar_heap 1).
  split; [exact ar_run|]. split; [reflexivity|]. split; [exact ar_closed|]. do 8 (split; [reflexivity|]). exact ar_rings.
Qed.
Lemma ring_size_area h s l : valid h s -> geo_finite h s -> In (RSegments l) (fst (find_rings h s)) ->
  3 <= length l /\ (0 < shoelace h l)%R /\ signed_area h (RSegments l) = Fin (shoelace h l).
Proof. intros V G H. destruct (ring_size h s l V G H) as (L & P & Fl). split; auto. split; auto. now apply area_R. Qed.
Lemma two_next : find_next_segment two_heap (forward two_heap two_sketch ++ map seg_reverse (forward two_heap two_sketch)) (ln 0 1) [] = Some (1, ln 1 2).
Proof.
  change (forward two_heap two_sketch ++ map seg_reverse (forward two_heap two_sketch)) with (map sg (zD sq_lns)).
  unfold two_heap. change (ln 0 1) with (sg (0, 1)). rewrite (next_oct _ _ two_ok) by (simpl; tauto). reflexivity.
Qed.
Lemma segment_polygon_form (h : heap xR) (s : sketch) l : valid h s -> geo_finite h s -> In (RSegments l) (fst (find_rings h s)) ->
  exists x t, l = x :: t /\ ring_polygon h (RSegments l) =
    mkPoly (map (fun g => (Fin (fst (from_pt h g)), Fin (snd (from_pt h g)))) (l ++ [x])) [].
Proof.
  intros V G H. destruct (segment_polygon h s l V G H) as (x & t & E & P). exists x, t. split; auto. rewrite P, map_app. reflexivity.
Qed.
Lemma circle_polygon_form (h : heap xR) c x y r : pdata h (c_center c) = (Fin x, Fin y) -> c_radius c = Fin r -> r <> 0%R ->
  ring_polygon h (RCircle c) = mkPoly (map (fun k => (Fin (fst (corner x y r k)), Fin (snd (corner x y r k)))) (seq 0 36 ++ [0])) [] /\
  forall k, ((fst (corner x y r k) - x) ^ 2 + (snd (corner x y r k) - y) ^ 2 = r ^ 2)%R.
Proof.
  intros Hp Hr H. split; [|apply corner_on]. apply (circle_polygon h c x y r); auto. unfold pdata in Hp. destruct (getP h (c_center c)). cbn in *. injection Hp as -> ->. reflexivity.
Qed.
Lemma left_polygon : ring_polygon two_heap left_sq = mkPoly [(qz 0, qz 0); (qz 4, qz 0); (qz 4, qz 4); (qz 0, qz 4); (qz 0, qz 0)] [].
Proof.
  destruct (segment_polygon_form two_heap two_sketch (ring_segs left_sq) two_valid two_finite) as (x & t & E & P); [rewrite two_rings; now left|].
  injection E as <- <-. exact P.
Qed.
Lemma travel_off (h : heap xR) a r : a_radius a = Fin r -> (0 < r)%R -> forall sa ea, a_sa a = Fin sa -> a_ea a = Fin ea ->
  exists t u k m, seg_start_angle h (SArc a) = Fin t /\ seg_end_angle h (SArc a) = Fin u /\
    travel r sa (a_cw a) = (t + (if a_cw a then - (PI / 2) else PI / 2) + 2 * PI * IZR k)%R /\
    travel r ea (a_cw a) = (u + (if a_cw a then - (PI / 2) else PI / 2) + 2 * PI * IZR m)%R.
Proof.
  intros _ H sa ea Hs He. destruct (travel_lemma r sa (a_cw a) H) as [k Ek]. destruct (travel_lemma r ea (a_cw a) H) as [m Em].
  exists sa, ea, k, m. auto.
Qed.
Lemma travel_refutes : exists ops rets (h : heap xR) s a, run xp init ops rets (h, s) /\ In (SArc a) (forward h s) /\
  a_radius a = Fin 1 /\ a_sa a = Fin 0 /\ a_cw a = false /\ exists t, seg_start_angle h (SArc a) = Fin t /\
  forall k, travel 1 0 false <> (t + 2 * PI * IZR k)%R.
Proof.
  exists ar_ops, [RetLoc 0; RetLoc 0; RetLoc 1], ar_heap, ar_sketch, (getA ar_heap 0). split; [exact ar_run|]. split; [now left|].
  do 3 (split; [reflexivity|]). exists 0%R. split; [reflexivity|]. intros k E. destruct (travel_lemma 1 0 false) as [m Em]; [lra|]. rewrite E in Em.
  apply (quarter_off (m - k)). rewrite minus_IZR. lra.
Qed.
