(** * Concrete sketches for the decomposition properties (exact arithmetic) *)
From Coq Require Import List ZArith NArith Arith Bool Lia Reals Lra Permutation.
From Verif Require Import Arith Vec Prim Cons Sketch Solve Decomp Api Spec ArithR ExactSpec DecompSpec SpecLemmas ExactLemmas DecompLemmas
  OrderLemmas WalkLemmas OctLemmas ExactDecomp FaceLemmas PolygonLemmas PolygonExact.
Import ListNotations.

Definition xp : mat xR -> xR -> pinv_res (mat xR) := fun _ _ => PErr.
Definition qz (z : Z) : xR := Fin (IZR z).
Ltac okD := simpl; repeat split; repeat constructor; simpl; try lia.
Ltac goD := repeat (first [apply run_nil | eapply run_cons; [okD | cbv -[IZR PI cos sin]; reflexivity |]]).

(** two concentric circles of radius 2 and 1 *)
Definition cc_heap : heap xR := mkHeap [Point2_new (qz 0) (qz 0)] [] [] [Circle_new 0 (qz 2); Circle_new 0 (qz 1)] [].
Definition cc_sketch : sketch := mkSketch [(0%N, PPoint 0); (1%N, PCircle 0); (2%N, PCircle 1)] 3%N [].
Definition cc_ops : list (op xR) :=
  [AddPoint2 (qz 0) (qz 0); NewCircle 0 (qz 2); NewCircle 0 (qz 1); AddPrimitive (PCircle 0); AddPrimitive (PCircle 1)].
Lemma cc_run : run xp init cc_ops [RetLoc 0; RetLoc 0; RetLoc 1; RetId 1%N; RetId 2%N] (cc_heap, cc_sketch).
Proof. unfold cc_ops. goD. Qed.
Definition cc_big : ring xR := RCircle (Circle_new 0 (qz 2)).
Definition cc_small : ring xR := RCircle (Circle_new 0 (qz 1)).
Lemma cc_rings : find_rings cc_heap cc_sketch = ([cc_small; cc_big], []).
Proof.
  unfold find_rings. change (ring_loop cc_heap (all_segments cc_heap cc_sketch)) with (@nil nat, @nil (list (nat * seg xR))).
  change (circle_rings cc_heap cc_sketch) with [cc_big; cc_small]. cbn [map app]. pose proof PI_RGT_0 as P.
  assert (A1 : signed_area cc_heap cc_big = Fin (4 * PI)) by (simpl; f_equal; lra).
  assert (A2 : signed_area cc_heap cc_small = Fin PI) by (simpl; f_equal; lra).
  cbn [sort_rings fold_right insert_ring]. rewrite A1, A2. cbn [ftle ArithR xtle xle]. unfold Rleb. destruct (Rle_dec (4 * PI) PI); [lra|].
  cbn [filter]. rewrite A1, A2. unfold fgt. rewrite f0_R, !lt_R. unfold Rltb. destruct (Rlt_dec 0 PI); [|lra]. destruct (Rlt_dec 0 (4 * PI)); [|lra]. reflexivity.
Qed.
Lemma cc_faces (cp : poly xR -> poly xR -> bool) : cp (ring_polygon cc_heap cc_big) (ring_polygon cc_heap cc_small) = true ->
  get_faces cp cc_heap cc_sketch = Val [Face cc_small [Face cc_small []]; Face cc_big []].
Proof.
  intros H. unfold get_faces, find_faces. rewrite cc_rings. cbn [map]. unfold what_contains_what. cbn [length Nat.sub seq firstn combine flat_map fst snd Nat.add skipn first_container].
  rewrite H. reflexivity.
Qed.

(** two unit-4 squares sharing an edge *)
Definition sq_pts : list (Z * Z) := [(0, 0); (4, 0); (4, 4); (0, 4); (8, 0); (8, 4)]%Z.
Definition sq_lns : list (nat * nat) := [(0, 1); (1, 2); (2, 3); (3, 0); (1, 4); (4, 5); (5, 2)].
Definition two_heap : heap xR := oct_heap sq_pts sq_lns.
Definition two_sketch : sketch := oct_sketch sq_pts sq_lns.
Definition pt_ops (l : list (Z * Z)) : list (op xR) := map (fun p => AddPoint2 (qz (fst p)) (qz (snd p))) l.
Definition ln_ops (l : list (nat * nat)) : list (op xR) := map (fun p => AddLine (fst p) (snd p)) l.
Lemma two_run : run xp init (pt_ops sq_pts ++ ln_ops sq_lns) (map RetLoc (seq 0 6) ++ map RetLoc (seq 0 7)) (two_heap, two_sketch).
Proof. cbn [pt_ops ln_ops map app sq_pts sq_lns seq fst snd]. goD. Qed.
Definition ln (a b : nat) : seg xR := SLine (mkLine a b).
Definition left_sq : ring xR := RSegments [ln 0 1; ln 1 2; ln 2 3; ln 3 0].
Definition right_sq : ring xR := RSegments [ln 1 4; ln 4 5; ln 5 2; ln 2 1].
Lemma two_rings : find_rings two_heap two_sketch = ([left_sq; right_sq], []).
Proof.
  unfold two_heap, two_sketch. rewrite rings_oct by (vm_compute; reflexivity).
  replace (zrings sq_pts sq_lns) with [[0; 1; 2; 3]; [4; 5; 6; 8]] by (vm_compute; reflexivity).
  replace (zunused sq_pts sq_lns) with (@nil nat) by (vm_compute; reflexivity). reflexivity.
Qed.

(** a square with an inward whisker at two opposite corners *)
Definition wh_pts : list (Z * Z) := [(0, 0); (4, 0); (4, 4); (0, 4); (1, 1); (3, 3)]%Z.
Definition wh_lns : list (nat * nat) := [(0, 1); (1, 2); (2, 3); (3, 0); (0, 4); (2, 5)].
Definition wh_heap : heap xR := oct_heap wh_pts wh_lns.
Definition wh_sketch : sketch := oct_sketch wh_pts wh_lns.
Lemma wh_run : run xp init (pt_ops wh_pts ++ ln_ops wh_lns) (map RetLoc (seq 0 6) ++ map RetLoc (seq 0 6)) (wh_heap, wh_sketch).
Proof. cbn [pt_ops ln_ops map app wh_pts wh_lns seq fst snd]. goD. Qed.
Lemma wh_rings : find_rings wh_heap wh_sketch = ([], [ln 0 1; ln 1 2; ln 2 3; ln 3 0; ln 0 4; ln 2 5]).
Proof.
  unfold wh_heap, wh_sketch. rewrite rings_oct by (vm_compute; reflexivity).
  replace (zrings wh_pts wh_lns) with (@nil (list nat)) by (vm_compute; reflexivity).
  replace (zunused wh_pts wh_lns) with [0; 1; 2; 3; 4; 5] by (vm_compute; reflexivity). reflexivity.
Qed.

(** a disc bounded by two half circles *)
Definition ar_heap : heap xR := mkHeap [Point2_new (qz 0) (qz 0)] [] [Arc_new 0 (qz 1) false (qz 0) fpi; Arc_new 0 (qz 1) false fpi ftau] [] [].
Definition ar_sketch : sketch := mkSketch [(0%N, PPoint 0); (1%N, PArc 0); (2%N, PArc 1)] 3%N [].
Definition ar_ops : list (op xR) := [AddPoint2 (qz 0) (qz 0); AddArc 0 (qz 1) false (qz 0) fpi; AddArc 0 (qz 1) false fpi ftau].
Lemma ar_run : run xp init ar_ops [RetLoc 0; RetLoc 0; RetLoc 1] (ar_heap, ar_sketch).
Proof. unfold ar_ops. goD. Qed.
Lemma ar_valid : valid ar_heap ar_sketch. Proof. exact (reachable_valid xp _ _ _ ar_run eq_refl). Qed.
Lemma ar_finite : geo_finite ar_heap ar_sketch.
Proof.
  intros c Hc. apply (valid_reg _ _ _ ar_valid) in Hc. simpl in Hc. destruct Hc as [<-|[<-|[<-|[]]]]; (split; [reflexivity|]); intros r Hr; simpl in Hr;
  repeat (destruct Hr as [<-|Hr]; [reflexivity|]); destruct Hr.
Qed.
Lemma ar_pts : from_pt ar_heap (SArc (getA ar_heap 0)) = (1, 0)%R /\ to_pt ar_heap (SArc (getA ar_heap 0)) = (-1, 0)%R /\
  from_pt ar_heap (SArc (getA ar_heap 1)) = (-1, 0)%R /\ to_pt ar_heap (SArc (getA ar_heap 1)) = (1, 0)%R.
Proof.
  unfold from_pt, to_pt. simpl. rewrite cos_0, sin_0, cos_PI, sin_PI, cos_2PI, sin_2PI. repeat split; f_equal; lra.
Qed.
Lemma ar_closed : closed_chain ar_heap [SArc (getA ar_heap 0); SArc (getA ar_heap 1)].
Proof.
  destruct ar_pts as (P1 & P2 & P3 & P4).
  assert (F0 : seg_fin ar_heap (SArc (getA ar_heap 0))) by (apply (forward_fin _ _ ar_valid ar_finite); simpl; auto).
  assert (F1 : seg_fin ar_heap (SArc (getA ar_heap 1))) by (apply (forward_fin _ _ ar_valid ar_finite); simpl; auto).
  destruct F0 as (A1 & A2 & _), F1 as (A3 & A4 & _).
  exists (SArc (getA ar_heap 0)), [SArc (getA ar_heap 1)]. split; auto. split; [split; [|exact I]|].
  - rewrite A2, A3, P2, P3. now apply v2eq_F2.
  - change (last [SArc (getA ar_heap 0); SArc (getA ar_heap 1)] (SArc (getA ar_heap 0))) with (SArc (getA ar_heap 1)). rewrite A4, A1, P4, P1. now apply v2eq_F2.
Qed.
Lemma ar_rings : fst (find_rings ar_heap ar_sketch) = [].
Proof.
  destruct (fst (find_rings ar_heap ar_sketch)) as [|r l] eqn:E; auto. exfalso.
  assert (H : In r (fst (find_rings ar_heap ar_sketch))) by (rewrite E; now left). destruct r as [c|g].
  - apply C35_lemma in H. destruct H as (l0 & id & H & _). simpl in H. intuition discriminate.
  - destruct (ring_size _ _ _ ar_valid ar_finite H) as (_ & P & _). apply in_rings in H as [_ [(w & used & i & g0 & E2 & Hn & W)|(c & _ & E2)]]; [|discriminate].
    injection E2 as ->. assert (Z : forall x, In x (directed ar_heap ar_sketch) -> crossR (from_pt ar_heap x) (to_pt ar_heap x) = 0%R).
    { destruct ar_pts as (P1 & P2 & P3 & P4). intros x Hx.
      change (In x [SArc (getA ar_heap 0); SArc (getA ar_heap 1); seg_reverse (SArc (getA ar_heap 0)); seg_reverse (SArc (getA ar_heap 1))]) in Hx.
      destruct Hx as [<-|[<-|[<-|[<-|[]]]]].
      - rewrite P1, P2. unfold crossR. simpl. lra.
      - rewrite P3, P4. unfold crossR. simpl. lra.
      - destruct (rev_pts ar_heap (SArc (getA ar_heap 0))) as [R1 R2]. rewrite R1, R2, P1, P2. unfold crossR. simpl. lra.
      - destruct (rev_pts ar_heap (SArc (getA ar_heap 1))) as [R1 R2]. rewrite R1, R2, P3, P4. unfold crossR. simpl. lra. }
    assert (C := cwalk_consistent _ _ _ _ (i, g0) _ Hn W). rewrite shoelace_sum in P.
    assert (S : sumR (fun g => crossR (from_pt ar_heap g) (to_pt ar_heap g)) (map snd w) = 0%R); [|rewrite S in P; lra].
    clear - C Z. induction w as [|[j y] w IH]; [reflexivity|]. inversion C as [|? ? C1 C2]; subst. cbn [map snd sumR fold_right]. unfold sumR in IH. rewrite IH by auto.
    rewrite Z; [lra|]. eapply nth_error_In. exact C1.
Qed.

(** an arc whose start point is constrained, before and after [get_gradient] *)
Definition gr_heap : heap xR :=
  mkHeap [Point2_new (qz 0) (qz 0); Point2_new (qz 2) (qz 0); Point2_new (qz 3) (qz 0)] [mkLine 1 2] [Arc_new 0 (qz 1) false (qz 0) fpi] []
    [ArcStartPointCoincident 0 1].
Definition gr_sketch : sketch :=
  mkSketch [(0%N, PPoint 0); (1%N, PPoint 1); (2%N, PPoint 2); (3%N, PLine 0); (4%N, PArc 0)] 5%N [0].
Definition gr_ops : list (op xR) :=
  [AddPoint2 (qz 0) (qz 0); AddPoint2 (qz 2) (qz 0); AddPoint2 (qz 3) (qz 0); AddLine 1 2; AddArc 0 (qz 1) false (qz 0) fpi;
   Constrain (ArcStartPointCoincident 0 1)].
Lemma gr_run : run xp init gr_ops [RetLoc 0; RetLoc 1; RetLoc 2; RetLoc 0; RetLoc 0; RetLoc 0] (gr_heap, gr_sketch).
Proof. unfold gr_ops. goD. Qed.
Definition gr_after : heap xR := fst (get_gradient gr_sketch gr_heap).
Lemma gr_gradient : exists v, get_gradient gr_sketch gr_heap = (gr_after, Val v).
Proof. unfold gr_after. eexists. cbv -[IZR PI cos sin Rplus Rmult Rminus Rinv Rdiv Ropp pow]. reflexivity. Qed.

Section Four.
Variables (h : heap xR) (x0 x1 x2 x3 : seg xR) (b : bool).
Hypothesis T : forall i j x y, nth_error [x0; x1; x2; x3] i = Some x -> nth_error [x0; x1; x2; x3] j = Some y ->
  v2eq (get_end h x) (get_start h y) = Nat.eqb ((i + 2) mod 4) j.
Hypothesis E20 : equals_or_reverse_equals h x2 x0 = true.
Hypothesis E02 : equals_or_reverse_equals h x0 x2 = true.
Hypothesis E31 : equals_or_reverse_equals h x3 x1 = true.
Hypothesis E13 : equals_or_reverse_equals h x1 x3 = b.
Lemma four_loop : ring_loop h [x0; x1; x2; x3] = if b then ([], []) else ([3; 1], [[(3, x3); (1, x1)]]).
Proof.
  assert (T00 := T 0 0 _ _ eq_refl eq_refl). assert (T01 := T 0 1 _ _ eq_refl eq_refl). assert (T02 := T 0 2 _ _ eq_refl eq_refl). assert (T03 := T 0 3 _ _ eq_refl eq_refl).
  assert (T10 := T 1 0 _ _ eq_refl eq_refl). assert (T11 := T 1 1 _ _ eq_refl eq_refl). assert (T12 := T 1 2 _ _ eq_refl eq_refl). assert (T13 := T 1 3 _ _ eq_refl eq_refl).
  assert (T20 := T 2 0 _ _ eq_refl eq_refl). assert (T21 := T 2 1 _ _ eq_refl eq_refl). assert (T22 := T 2 2 _ _ eq_refl eq_refl). assert (T23 := T 2 3 _ _ eq_refl eq_refl).
  assert (T30 := T 3 0 _ _ eq_refl eq_refl). assert (T31 := T 3 1 _ _ eq_refl eq_refl). assert (T32 := T 3 2 _ _ eq_refl eq_refl). assert (T33 := T 3 3 _ _ eq_refl eq_refl).
  simpl in T00, T01, T02, T03, T10, T11, T12, T13, T20, T21, T22, T23, T30, T31, T32, T33. clear T.
  assert (N0 : find_next_segment h [x0; x1; x2; x3] x0 [] = None).
  { unfold find_next_segment, next_matches, continues. cbn [length seq combine flat_map existsb fst snd]. now rewrite T00, T01, T02, T03, E20. }
  assert (N1 : find_next_segment h [x0; x1; x2; x3] x1 [] = None).
  { unfold find_next_segment, next_matches, continues. cbn [length seq combine flat_map existsb fst snd]. now rewrite T10, T11, T12, T13, E31. }
  assert (N2 : find_next_segment h [x0; x1; x2; x3] x2 [] = None).
  { unfold find_next_segment, next_matches, continues. cbn [length seq combine flat_map existsb fst snd]. now rewrite T20, T21, T22, T23, E02. }
  assert (N3 : find_next_segment h [x0; x1; x2; x3] x3 [] = if b then None else Some (1, x1)).
  { unfold find_next_segment, next_matches, continues. cbn [length seq combine flat_map existsb fst snd]. rewrite T30, T31, T32, T33, E13. now destruct b. }
  unfold ring_loop. cbn [length seq combine fold_left].
  unfold ring_step at 4. cbn [fst snd existsb length Nat.sub walk app]. rewrite T00, N0.
  unfold ring_step at 3. cbn [fst snd existsb length Nat.sub walk app]. rewrite T11, N1.
  unfold ring_step at 2. cbn [fst snd existsb length Nat.sub walk app]. rewrite T22, N2.
  unfold ring_step at 1. cbn [fst snd existsb length Nat.sub walk app]. rewrite T33, N3. destruct b; [reflexivity|].
  cbn [fst snd]. rewrite T13. reflexivity.
Qed.
End Four.
Lemma F2_neq a b c d : (a <> c \/ b <> d) -> v2eq (F2 (a, b)) (F2 (c, d)) = false.
Proof. intros H. apply not_true_iff_false. rewrite v2eq_F2. intros [= ? ?]. tauto. Qed.
Definition gL (h : heap xR) : seg xR := SLine (getL h 0).
Definition gA (h : heap xR) : seg xR := SArc (getA h 0).
Lemma some_inj {T} (a b : T) : Some a = Some b -> a = b. Proof. congruence. Qed.
Lemma gr_table h : (exists p q r s, getP h 0 = mkPoint (Fin 0) (Fin 0) p q /\ getP h 1 = mkPoint (Fin 2) (Fin 0) r s /\ exists u v, getP h 2 = mkPoint (Fin 3) (Fin 0) u v) ->
  getL h 0 = mkLine 1 2 -> (exists p q r, getA h 0 = mkArc 0 (Fin 1) (Fin 0) (Fin PI) p q r false) ->
  forall i j x y, let D := [gL h; gA h; seg_reverse (gL h); seg_reverse (gA h)] in nth_error D i = Some x -> nth_error D j = Some y ->
  v2eq (get_end h x) (get_start h y) = Nat.eqb ((i + 2) mod 4) j.
Proof.
  intros (p & q & r & s & E0 & E1 & u & v & E2) El (p' & q' & r' & Ea) i j x y D Hx Hy.
  assert (SL : get_start h (gL h) = F2 (2, 0)%R) by (unfold gL; rewrite El; simpl; unfold pdata; rewrite E1; reflexivity).
  assert (EL : get_end h (gL h) = F2 (3, 0)%R) by (unfold gL; rewrite El; simpl; unfold pdata; rewrite E2; reflexivity).
  assert (SA : get_start h (gA h) = F2 (1, 0)%R).
  { unfold gA; rewrite Ea. cbn [get_start]. unfold arc_start_point. cbn [a_center a_radius a_sa]. rewrite E0. simpl. rewrite cos_0, sin_0. unfold F2. simpl. f_equal; f_equal; lra. }
  assert (EA : get_end h (gA h) = F2 (-1, 0)%R).
  { unfold gA; rewrite Ea. cbn [get_end]. unfold arc_end_point. cbn [a_center a_radius a_ea]. rewrite E0. simpl. rewrite cos_PI, sin_PI. unfold F2. simpl. f_equal; f_equal; lra. }
  assert (SL' : get_start h (seg_reverse (gL h)) = F2 (3, 0)%R) by exact EL.
  assert (EL' : get_end h (seg_reverse (gL h)) = F2 (2, 0)%R) by exact SL.
  assert (SA' : get_start h (seg_reverse (gA h)) = F2 (-1, 0)%R) by exact EA.
  assert (EA' : get_end h (seg_reverse (gA h)) = F2 (1, 0)%R) by exact SA.
  unfold D in *. destruct i as [|[|[|[|i]]]]; cbn [nth_error] in Hx; try (destruct i; discriminate); apply some_inj in Hx; subst x;
  (destruct j as [|[|[|[|j]]]]; cbn [nth_error] in Hy; try (destruct j; discriminate); apply some_inj in Hy; subst y);
  rewrite ?SL, ?EL, ?SA, ?EA, ?SL', ?EL', ?SA', ?EA'; cbn [Nat.add Nat.modulo Nat.divmod fst snd Nat.sub Nat.eqb];
  try (apply v2eq_F2; reflexivity); apply F2_neq; try (left; lra).
Qed.
Lemma feq_refl_R a : feq (Fin a) (Fin a) = true.
Proof. simpl. unfold Reqb. destruct (Req_EM_T a a); tauto. Qed.
Lemma point_eq_fin p : (exists a b c d, p = mkPoint (Fin a) (Fin b) (Fin c) (Fin d)) -> point_eq p p = true.
Proof. intros (a & b & c & d & ->). unfold point_eq. cbn [p_x p_y p_gx p_gy]. now rewrite !feq_refl_R. Qed.
Lemma gr_cases h g : (exists p q r s, getP h 0 = mkPoint (Fin 0) (Fin 0) (Fin p) (Fin q) /\ getP h 1 = mkPoint (Fin 2) (Fin 0) (Fin r) (Fin s) /\
    exists u v, getP h 2 = mkPoint (Fin 3) (Fin 0) (Fin u) (Fin v)) ->
  getL h 0 = mkLine 1 2 -> (exists q r, getA h 0 = mkArc 0 (Fin 1) (Fin 0) (Fin PI) (Fin g) (Fin q) (Fin r) false /\ (g = 0%R -> q = 0%R /\ r = 0%R)) ->
  snd (find_rings h gr_sketch) = if Req_EM_T g 0 then [gL h; gA h] else [gL h].
Proof.
  intros (p & q & r & s & E0 & E1 & u & v & E2) El (q' & r' & Ea & Hg).
  assert (P0 : point_eq (getP h 0) (getP h 0) = true) by (apply point_eq_fin; eauto 10).
  assert (P1 : point_eq (getP h 1) (getP h 1) = true) by (apply point_eq_fin; eauto 10).
  assert (P2 : point_eq (getP h 2) (getP h 2) = true) by (apply point_eq_fin; eauto 10).
  unfold find_rings. change (all_segments h gr_sketch) with [gL h; gA h; seg_reverse (gL h); seg_reverse (gA h)].
  rewrite (four_loop h _ _ _ _ (if Req_EM_T g 0 then true else false)).
  - destruct (Req_EM_T g 0); reflexivity.
  - apply gr_table; eauto 12.
  - unfold equals_or_reverse_equals, reverse_equals. apply orb_true_iff. right. unfold gL. rewrite El. simpl. unfold line_eq. simpl. now rewrite P1, P2.
  - unfold equals_or_reverse_equals, reverse_equals. apply orb_true_iff. right. unfold gL. rewrite El. simpl. unfold line_eq. simpl. now rewrite P1, P2.
  - unfold equals_or_reverse_equals, reverse_equals. apply orb_true_iff. right. unfold gA. rewrite Ea. cbn [seg_reverse seg_eq Arc_reverse]. unfold arc_eq, Arc_reverse, Arc_new. cbn [a_center a_radius a_sa a_ea a_gr a_gsa a_gea a_cw negb].
    rewrite P0, f0_R, !feq_refl_R. reflexivity.
  - unfold equals_or_reverse_equals, reverse_equals. unfold gA. rewrite Ea. cbn [seg_reverse seg_eq Arc_reverse]. unfold arc_eq, Arc_reverse, Arc_new. cbn [a_center a_radius a_sa a_ea a_gr a_gsa a_gea a_cw negb].
    rewrite P0, f0_R, !feq_refl_R. cbn [Bool.eqb]. rewrite !andb_false_r, andb_true_r. cbn [orb andb].
    destruct (Req_EM_T g 0) as [->|Hn].
    + destruct (Hg eq_refl) as [-> ->]. now rewrite !feq_refl_R.
    + simpl. unfold Reqb. destruct (Req_EM_T g 0); tauto.
Qed.
Lemma gr_before_unused : snd (find_rings gr_heap gr_sketch) = [gL gr_heap; gA gr_heap].
Proof.
  rewrite (gr_cases gr_heap 0); [destruct (Req_EM_T 0 0); tauto | | reflexivity |].
  - exists 0%R, 0%R, 0%R, 0%R. unfold getP, gr_heap, Point2_new, qz. cbn [h_pts nth]. rewrite f0_R. repeat split. exists 0%R, 0%R. reflexivity.
  - exists 0%R, 0%R. unfold getA, gr_heap, Arc_new, qz. cbn [h_arcs nth]. rewrite f0_R. auto.
Qed.
Lemma gr_after_unused : snd (find_rings gr_after gr_sketch) = [gL gr_after].
Proof.
  set (v := (0 / 10 ^ 0 + ((0 + 1 * cos 0 - 2) * cos 0 + (0 + 1 * sin 0 - 0) * sin 0))%R).
  assert (Hv : v = (-1)%R) by (unfold v; rewrite cos_0, sin_0; lra).
  rewrite (gr_cases gr_after v); [destruct (Req_EM_T v 0); [lra|reflexivity] | | reflexivity |].
  - do 4 eexists. split; [unfold gr_after; cbv -[IZR PI cos sin Rplus Rmult Rminus Rinv Rdiv Ropp pow]; reflexivity|].
    split; [unfold gr_after; cbv -[IZR PI cos sin Rplus Rmult Rminus Rinv Rdiv Ropp pow]; reflexivity|].
    do 2 eexists. unfold gr_after; cbv -[IZR PI cos sin Rplus Rmult Rminus Rinv Rdiv Ropp pow]; reflexivity.
  - do 2 eexists. split; [unfold gr_after, v; cbv -[IZR PI cos sin Rplus Rmult Rminus Rinv Rdiv Ropp pow]; reflexivity|]. intros H. lra.
Qed.
