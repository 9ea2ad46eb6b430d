(** * C55 - C61: defaults, equality, the gradient checker and the operations on single cells *)
From Coq Require Import List ZArith NArith Arith Bool Lia Sorted Reals Lra Floats.SpecFloat.
From Verif Require Import Arith Vec Prim Cons Sketch Solve Decomp Api Spec CellSpec SolverSpec SerdeSpec ArithR ArithF ExactSpec
  SpecLemmas CellForms CheckLemmas CellWitness SolverWitness PropsBook PropsLoss PropsSolver.
Import ListNotations.
Local Close Scope R_scope.

(** ** C55: what Ok means with the default parameters *)
Theorem C55_gradient_descent : forall {F} {A : Arith F} s (h h' : heap F) n, valid h s ->
  gd_run s gd_default h = (h', Val (SOk n)) ->
  flt (get_loss h' s) (flit 1 14) = true \/
  (exists g, snd (get_gradient s h') = Val g /\ flt (vnorm g) (flit 1 10) = true) \/
  N.of_nat n = 10000%N.
Proof. exact @C55_gd_lemma. Qed.
Theorem C55_bfgs : forall {F} {A : Arith F} s (h h' : heap F) n, valid h s ->
  bfgs_run s bfgs_default h = (h', Val (SOk n)) ->
  flt (get_loss h' s) (flit 1 16) = true \/
  (exists g, snd (get_gradient s h') = Val g /\ flt (vnorm_inf g) (flit 1 8) = true) \/
  n = 1000%N.
Proof. exact @C55_bfgs_lemma. Qed.
(** The pseudo-inverse is taken with eps = 1e-6, also when the other parameters are given by the caller. *)
Theorem C55_gauss_newton : forall {F} {A : Arith F} pinv s P (h h' : heap F) n max min_loss step,
  (P = gn_default /\ max = 10000%N /\ min_loss = flit 1 6 /\ step = flit 1 3) \/ P = gn_with_params max min_loss step ->
  gn_run pinv s P h = (h', Val (SOk n)) ->
  exists l, nls_steps pinv s gn_normal (flit 1 6) step h n l h' /\ (N.of_nat n = max \/ fgt l min_loss = false).
Proof. exact @C55_gn_lemma. Qed.
Theorem C55_levenberg_marquardt : forall {F} {A : Arith F} pinv s P (h h' : heap F) n max min_loss step beta,
  (P = lm_default /\ max = 1000%N /\ min_loss = flit 1 10 /\ step = flit 1 1 /\ beta = flit 1 5) \/
    P = lm_with_params max min_loss step beta ->
  lm_run pinv s P h = (h', Val (SOk n)) ->
  exists l, nls_steps pinv s (lm_normal beta) (flit 1 6) step h n l h' /\ (N.of_nat n = max \/ fgt l min_loss = false).
Proof. exact @C55_lm_lemma. Qed.
Example C55_example : forall L, let A := ArithF L in let h := fix_heap (lit64 3 0) (lit64 4 0) (lit64 1 0) (lit64 5 1) in
  valid h fix_sketch /\ snd (gd_run fix_sketch gd_default h) = Val (SOk 1) /\
  snd (bfgs_run fix_sketch bfgs_default h) = Val (SOk 1%N) /\
  snd (lm_run pinv23_lm fix_sketch (lm_with_params 100 one (lit64 1 0) one) h23) = Val (SOk 1).
Proof. intros L A h. split; [apply fix_valid; reflexivity|]. vm_compute. auto. Qed.

(** ** C56: joining and equality of segments and rings *)
Theorem C56_connects : forall {F} {A : Arith F} (h : heap F) g p,
  (connects h g p = true <-> continues h g p = true \/ continues h (seg_reverse g) p = true) /\
  (continues h g p = true <-> feq (fst (get_end h p)) (fst (get_start h g)) = true /\ feq (snd (get_end h p)) (snd (get_start h g)) = true).
Proof. exact (fun F A h g p => conj (connects_iff h g p) (feq2 _ _)). Qed.
(** [==] compares kind, direction flag and all numbers in order, cached gradients included. *)
Theorem C56_equality : forall {F} {A : Arith F} (h : heap F),
  (forall g g', seg_eq h g g' = true <-> same_seg h g g') /\ (forall r r', ring_eq h r r' = true <-> same_ring h r r').
Proof. exact (fun F A h => conj (seg_eq_iff h) (ring_eq_iff h)). Qed.
Theorem C56_symmetric_transitive : forall {F} {A : Arith F} (h : heap F) r r' r'',
  (forall a b : F, feq a b = true -> feq b a = true) ->
  (forall a b c : F, feq a b = true -> feq b c = true -> feq a c = true) ->
  ring_eq h r r' = ring_eq h r' r /\ (ring_eq h r r' = true -> ring_eq h r' r'' = true -> ring_eq h r r'' = true).
Proof. exact @C56_eqv_lemma. Qed.
Theorem C56_binary64 : forall L (h : heap spec_float) r r' r'', let A := ArithF L in
  ring_eq h r r' = ring_eq h r' r /\ (ring_eq h r r' = true -> ring_eq h r' r'' = true -> ring_eq h r r'' = true).
Proof. exact (fun L h r r' r'' => @C56_eqv_lemma _ (ArithF L) h r r' r'' feq64_sym feq64_trans). Qed.
(** It is not geometric equality: the same ring listed from another segment on, or with another cached
    gradient, is a different ring. *)
Definition tri3 : heap spec_float :=
  mkHeap [mkPoint zero zero zero zero; mkPoint one zero zero zero; mkPoint zero one zero zero; mkPoint zero zero one zero] [] [] [] [].
Theorem C56_geometric_refuted : forall L, let A := ArithF L in exists (h : heap spec_float) r r' r'',
  rotated r r' /\ ring_eq h r r = true /\ ring_eq h r r' = false /\
  ring_polygon h r = ring_polygon h r'' /\ ring_eq h r r'' = false.
Proof.
  intros L A. exists tri3, (RSegments [SLine (mkLine 0 1); SLine (mkLine 1 2); SLine (mkLine 2 0)]),
    (RSegments [SLine (mkLine 1 2); SLine (mkLine 2 0); SLine (mkLine 0 1)]),
    (RSegments [SLine (mkLine 3 1); SLine (mkLine 1 2); SLine (mkLine 2 3)]).
  split; [eexists [_], [_; _]; split; reflexivity|]. vm_compute. repeat split.
Qed.
Example C56_example : forall L, let A := ArithF L in
  connects tri3 (SLine (mkLine 2 1)) (SLine (mkLine 0 1)) = true /\ continues tri3 (SLine (mkLine 2 1)) (SLine (mkLine 0 1)) = false /\
  seg_eq tri3 (SLine (mkLine 0 1)) (SLine (mkLine 0 1)) = true /\ seg_eq tri3 (SLine (mkLine 0 1)) (SLine (mkLine 3 1)) = false.
Proof. intros L A. vm_compute. auto. Qed.

(** ** C57: the gradient checker *)
Theorem C57_leaves_data : forall {F} {A : Arith F} s eps k ce (h : heap F) c, valid h s -> finite_data h s ->
  prim_data (fst (check_gradients s eps k ce h)) c = prim_data h c.
Proof. exact (fun F A s eps k ce h c V Hf => proj1 (check_lemma s eps k ce h V Hf) c). Qed.
(** It accepts exactly when the gradient of the sketch can be evaluated and, for every primitive, the
    gradient cached in it is within [ce] of the vector of difference quotients of the given constraint. *)
Theorem C57_accepts : forall {F} {A : Arith F} s eps k ce (h h' : heap F), valid h s -> finite_data h s ->
  (check_gradients s eps k ce h = (h', Val tt) <->
   exists g, get_gradient s h = (h', Val g) /\ forall c, registered s c ->
     exists num, length num = length (prim_data h c) /\
       (forall i q, nth_error num i = Some q -> finite_difference h c k eps i q) /\
       flt (vnorm (vsub num (prim_grad h' c))) ce = true).
Proof. exact (fun F A s eps k ce h h' V Hf => proj2 (check_lemma s eps k ce h V Hf) h'). Qed.
(** In exact arithmetic, with the checked constraint the only one, every tolerance is met by every
    step that is small enough: the checker raises no false alarm. *)
Theorem C57_no_false_alarm : forall (h : heap xR) s k, valid h s -> finite_data h s -> s_cons s = [k] ->
  con_finite h (getK h k) -> nondegenerate (cfg_of h) h (getK h k) ->
  forall ce, (0 < ce)%R -> exists e0, (0 < e0)%R /\ forall e, e <> 0%R -> (Rabs e < e0)%R ->
    exists h', check_gradients s (Fin e) k (Fin ce) h = (h', Val tt).
Proof. exact check_exact. Qed.
Definition dist_heap : heap xR := mkHeap [Point2_new (q 0) (q 0); Point2_new (q 3) (q 4)] [] [] [] [EuclideanDistance 0 1 (q 2)].
Definition dist_sketch : sketch := mkSketch [(0%N, PPoint 0); (1%N, PPoint 1)] 2%N [0].
Example C57_example : valid dist_heap dist_sketch /\ finite_data dist_heap dist_sketch /\ s_cons dist_sketch = [0] /\
  con_finite dist_heap (getK dist_heap 0) /\ nondegenerate (cfg_of dist_heap) dist_heap (getK dist_heap 0).
Proof.
  assert (V : valid dist_heap dist_sketch).
  { refine (reachable_valid no_pinv [AddPoint2 (q 0) (q 0); AddPoint2 (q 3) (q 4); Constrain (EuclideanDistance 0 1 (q 2))] [RetLoc 0; RetLoc 1; RetLoc 0] (dist_heap, dist_sketch) _ _);
    [go2 | reflexivity]. }
  split; [exact V|]. split; [apply (finite_iff _ _ (valid_keys _ _ V)); reflexivity|]. split; [reflexivity|]. split.
  - split; [reflexivity|]. intros d; simpl. intros [<-|[<-|[]]]; reflexivity.
  - cbn. unfold from_to. cbn. apply Rlt_le, len_big. lra.
Qed.
(** The cached gradient is that of all constraints together: with two constraints the checker
    rejects although every derivative is right. *)
Theorem C57_sum_rejected : forall L, let A := ArithF L in exists (h : heap spec_float) s1 s2,
  valid h s1 /\ valid h s2 /\ finite_data h s1 /\ s_prims s1 = s_prims s2 /\ s_cons s1 = [0] /\ s_cons s2 = [0; 1] /\
  snd (check_gradients s1 (lit64 1 3) 0 (lit64 1 2) h) = Val tt /\ snd (check_gradients s2 (lit64 1 3) 0 (lit64 1 2) h) = Panic.
Proof. exact C57_sum_witness. Qed.

(** ** C58: setters *)
Theorem C58_point : forall {F} {A : Arith F} (h : heap F) l x0 y0 g v, cell_ok h (PPoint l) -> view h (PPoint l) = ([x0; y0], g, [], None) ->
  (ffin v = true -> exists h', Point2_set_x l v h = (h', Val tt) /\ becomes h h' (PPoint l) ([v; y0], g, [], None)) /\
  (ffin v = true -> exists h', Point2_set_y l v h = (h', Val tt) /\ becomes h h' (PPoint l) ([x0; v], g, [], None)) /\
  (ffin v = false -> Point2_set_x l v h = (h, Panic) /\ Point2_set_y l v h = (h, Panic)).
Proof. exact @point_setters. Qed.
Theorem C58_line : forall {F} {A : Arith F} (h : heap F) l a b p, cell_ok h (PLine l) -> view h (PLine l) = ([], [], [PPoint a; PPoint b], None) ->
  becomes h (Line_set_start l p h) (PLine l) ([], [], [PPoint p; PPoint b], None) /\
  becomes h (Line_set_end l p h) (PLine l) ([], [], [PPoint a; PPoint p], None).
Proof. exact @line_setters. Qed.
Theorem C58_arc : forall {F} {A : Arith F} (h : heap F) l r sa ea g c cw, cell_ok h (PArc l) -> view h (PArc l) = ([r; sa; ea], g, [PPoint c], Some cw) ->
  (forall p, becomes h (Arc_set_center l p h) (PArc l) ([r; sa; ea], g, [PPoint p], Some cw)) /\
  (forall x, becomes h (Arc_set_radius l x h) (PArc l) ([x; sa; ea], g, [PPoint c], Some cw)) /\
  (forall x, becomes h (Arc_set_start_angle l x h) (PArc l) ([r; x; ea], g, [PPoint c], Some cw)) /\
  (forall x, becomes h (Arc_set_end_angle l x h) (PArc l) ([r; sa; x], g, [PPoint c], Some cw)) /\
  (forall b, becomes h (Arc_set_clockwise l b h) (PArc l) ([r; sa; ea], g, [PPoint c], Some b)).
Proof. exact @arc_setters. Qed.
Theorem C58_circle : forall {F} {A : Arith F} (h : heap F) l r g c, cell_ok h (PCircle l) -> view h (PCircle l) = ([r], g, [PPoint c], None) ->
  (forall p, becomes h (Circle_set_center l p h) (PCircle l) ([r], g, [PPoint p], None)) /\
  (forall x, becomes h (Circle_set_radius l x h) (PCircle l) ([x], g, [PPoint c], None)).
Proof. exact @circle_setters. Qed.
Example C58_example : cell_ok ex2_heap (PPoint 1) /\ view ex2_heap (PPoint 1) = ([q 3; q 4], [f0; f0], [], None) /\
  cell_ok ex2_heap (PLine 1) /\ view ex2_heap (PLine 1) = ([], [], [PPoint 1; PPoint 2], None) /\
  cell_ok ex2_heap (PArc 0) /\ view ex2_heap (PArc 0) = ([q 2; q 0; q 1], [f0; f0; f0], [PPoint 0], Some false).
Proof. repeat (split; [cbn; first [lia | reflexivity]|]). reflexivity. Qed.

(** ** C59: set_desired_* on a constraint (the call [ConSetParams] of the interface) *)
Theorem C59 : forall {F} {A : Arith F} (h : heap F) s k x y, k < length (h_cons h) ->
  let st := step (fun _ _ => PErr) (h, s) (ConSetParams k x y) in
  let h' := fst (fst st) in let c := getK h k in let c' := getK h' k in
  snd st = RetOk /\ snd (fst st) = s /\
  same_kind c c' = true /\ con_refs c' = con_refs c /\
  con_params c' = match length (con_params c) with 1 => [x] | 2 => [x; y] | _ => [] end /\
  (forall j, j <> k -> getK h' j = getK h j) /\ length (h_cons h') = length (h_cons h) /\
  (forall p, view h' p = view h p) /\ (forall p, cell_ok h' p <-> cell_ok h p).
Proof. exact @set_params. Qed.
Example C59_example : 1 < length (h_cons ex2_heap) /\ con_params (getK ex2_heap 1) = [q 1] /\
  getK (fst (fst (step no_pinv (ex2_heap, ex2_sketch) (ConSetParams 1 (q 3) (q 9))))) 1 = AngleBetweenPoints 0 2 1 (q 3).
Proof. cbn. repeat split. lia. Qed.

(** ** C60: the constrain_* helpers *)
Theorem C60_added : forall {F} {A : Arith F} (h : heap F) s, valid h s -> let reg := registered s in
  (forall l1 l2, reg (PLine l1) -> reg (PLine l2) ->
     adds_constraint h s (PerpendicularLines l1 l2) (constrain_perpendicular_lines h s l1 l2) /\
     adds_constraint h s (ParallelLines l1 l2) (constrain_parallel_lines h s l1 l2)) /\
  (forall p1 p2 d, reg (PPoint p1) -> reg (PPoint p2) -> ffin d = true ->
     adds_constraint h s (EuclideanDistance p1 p2 d) (constrain_distance_euclidean h s p1 p2 d)) /\
  (forall p x y, reg (PPoint p) -> ffin x = true -> ffin y = true ->
     adds_constraint h s (FixPoint p x y) (constrain_fix_point h s p x y)) /\
  (forall p1 p2 pm a, reg (PPoint p1) -> reg (PPoint p2) -> reg (PPoint pm) -> ffin a = true ->
     adds_constraint h s (AngleBetweenPoints p1 p2 pm a) (constrain_angle_between_points h s p1 p2 pm a)).
Proof. exact @C60_lemma. Qed.
(** A reference that is not registered: an error, and the sketch is unchanged.  A parameter that is not
    finite: a panic, and nothing is changed. *)
Theorem C60_refused : forall {F} {A : Arith F} (h : heap F) s c, valid h s ->
  (forall r, con_new_ok c = true -> In r (con_refs c) -> ~ registered s r -> refuses s (constrain h s c)) /\
  (con_new_ok c = false -> constrain h s c = (h, s, Panic)).
Proof. exact @C60_refused_lemma. Qed.
Example C60_example : valid ex2_heap ex2_sketch /\ registered ex2_sketch (PLine 0) /\ registered ex2_sketch (PLine 1) /\
  registered ex2_sketch (PPoint 2) /\ ~ registered ex2_sketch (PPoint 3).
Proof.
  split; [exact ex2_valid|]. split; [exists 3%N; reflexivity|]. split; [exists 4%N; reflexivity|]. split; [exists 2%N; reflexivity|].
  intros H. apply (valid_reg _ _ _ ex2_valid) in H. simpl in H. intuition discriminate.
Qed.

(** ** C61: add_to_gradient accumulates *)
Theorem C61_point : forall {F} {A : Arith F} (h : heap F) l d a b x y, cell_ok h (PPoint l) -> view h (PPoint l) = (d, [a; b], [], None) ->
  (all_finite [x; y] = true -> exists h', Point2_add_to_gradient l [x; y] h = (h', Val tt) /\
     becomes h h' (PPoint l) (d, [a +f x; b +f y], [], None)) /\
  (all_finite [x; y] = false -> Point2_add_to_gradient l [x; y] h = (h, Panic)).
Proof. exact @point_add. Qed.
(** ... a line passes its four entries on to its points, the start point first *)
Theorem C61_line : forall {F} {A : Arith F} (h : heap F) l a b x y z w, heap_ok h -> cell_ok h (PLine l) -> prim_refs h (PLine l) = [PPoint a; PPoint b] ->
  (all_finite [x; y; z; w] = true -> exists h1 h', Line_add_to_gradient l [x; y; z; w] h = (h', Val tt) /\
     gadd h h1 a x y /\ gadd h1 h' b z w) /\
  (all_finite [x; y; z; w] = false -> Line_add_to_gradient l [x; y; z; w] h = (h, Panic)).
Proof. exact @line_add. Qed.
Theorem C61_arc : forall {F} {A : Arith F} (h : heap F) l d u v w c o x y r s e, heap_ok h -> cell_ok h (PArc l) ->
  view h (PArc l) = (d, [u; v; w], [PPoint c], o) ->
  (all_finite [x; y; r; s; e] = true -> exists h1 h', Arc_add_to_gradient l [x; y; r; s; e] h = (h', Val tt) /\
     gadd h h1 c x y /\ becomes h1 h' (PArc l) (d, [u +f r; v +f s; w +f e], [PPoint c], o)) /\
  (all_finite [x; y; r; s; e] = false -> Arc_add_to_gradient l [x; y; r; s; e] h = (h, Panic)).
Proof. exact @arc_add. Qed.
Theorem C61_circle : forall {F} {A : Arith F} (h : heap F) l d u c x y r, heap_ok h -> cell_ok h (PCircle l) ->
  view h (PCircle l) = (d, [u], [PPoint c], None) ->
  (all_finite [x; y; r] = true -> exists h1 h', Circle_add_to_gradient l [x; y; r] h = (h', Val tt) /\
     gadd h h1 c x y /\ becomes h1 h' (PCircle l) (d, [u +f r], [PPoint c], None)) /\
  (all_finite [x; y; r] = false -> Circle_add_to_gradient l [x; y; r] h = (h, Panic)).
Proof. exact @circle_add. Qed.
Example C61_example : heap_ok ex2_heap /\ cell_ok ex2_heap (PLine 1) /\ prim_refs ex2_heap (PLine 1) = [PPoint 1; PPoint 2] /\
  all_finite [q 1; q 2; q 3; q 4] = true /\ view ex2_heap (PArc 0) = ([q 2; q 0; q 1], [f0; f0; f0], [PPoint 0], Some false).
Proof. split; [exact (v_heap _ _ ex2_valid)|]. split; [cbn; lia|]. repeat split. Qed.

Print Assumptions C55_gradient_descent.
Print Assumptions C55_bfgs.
Print Assumptions C55_gauss_newton.
Print Assumptions C55_levenberg_marquardt.
Print Assumptions C56_connects.
Print Assumptions C56_equality.
Print Assumptions C56_symmetric_transitive.
Print Assumptions C56_binary64.
Print Assumptions C56_geometric_refuted.
Print Assumptions C57_leaves_data.
Print Assumptions C57_accepts.
Print Assumptions C57_no_false_alarm.
Print Assumptions C57_sum_rejected.
Print Assumptions C58_point.
Print Assumptions C58_line.
Print Assumptions C58_arc.
Print Assumptions C58_circle.
Print Assumptions C59.
Print Assumptions C60_added.
Print Assumptions C60_refused.
Print Assumptions C61_point.
Print Assumptions C61_line.
Print Assumptions C61_arc.
Print Assumptions C61_circle.
