(** * C75 - C77: copies of objects, their comparison, and the constant gradient matrices *)
From Coq Require Import List ZArith NArith Arith Bool Lia Reals Lra Floats.SpecFloat.
From Verif Require Import Arith ArithR ArithF Vec Prim Cons Sketch Solve Decomp Api Spec Value ValueSpec ValueForms ValueLemmas CellSpec CellForms BookWitness.
Import ListNotations.

(** ** C75: to_primitive and get_type return copies *)

(** The copy has the parameters, the cached gradient and the references of the object at the time of the call. *)
Theorem C75_copy : forall {F} {A : Arith F} (h : heap F) c,
  val_data (to_primitive h c) = prim_data h c /\ val_grad (to_primitive h c) = prim_grad h c /\
  val_refs (to_primitive h c) = prim_refs h c.
Proof. intros F A h c. destruct (@copy_now F A h c) as (? & ? & ?). auto. Qed.
(** Over any history of calls it keeps referring to the same points as the object, unless the object is made to refer to
    another point; the copy of a line remains a copy of that line. *)
Theorem C75_references : forall {F} {A : Arith F} pinv (st st' : state F) os rs c, run pinv st os rs st' -> cell_ok (fst st) c ->
  Forall (fun o => repoints_cell c o = false) os -> val_refs (to_primitive (fst st) c) = prim_refs (fst st') c.
Proof. intros F A pinv st st' os rs c. exact (@copy_refs F A pinv st os rs st' c). Qed.
Theorem C75_line : forall {F} {A : Arith F} pinv (st st' : state F) os rs l, run pinv st os rs st' -> cell_ok (fst st) (PLine l) ->
  Forall (fun o => repoints_cell (PLine l) o = false) os -> to_primitive (fst st') (PLine l) = to_primitive (fst st) (PLine l).
Proof. intros F A pinv st st' os rs l. exact (@copy_line F A pinv st os rs st' l). Qed.
(** The copy of a constraint stands for the constraint: whatever is done later (solving, moving points, deleting), its
    references, its loss and the effect of update_gradient are those of the constraint, unless a setter of that constraint
    is called. *)
Theorem C75_constraint : forall {F} {A : Arith F} pinv (st st' : state F) os rs k, run pinv st os rs st' -> k < length (h_cons (fst st)) ->
  Forall (fun o => writes_con k o = false) os ->
  con_refs (get_type (fst st) k) = con_refs (getK (fst st') k) /\
  loss_value (fst st') (get_type (fst st) k) = loss_value (fst st') (getK (fst st') k) /\
  update_gradient (get_type (fst st) k) (fst st') = update_gradient (getK (fst st') k) (fst st').
Proof. intros F A pinv st st' os rs k. exact (@copy_con F A pinv st os rs st' k). Qed.

Definition ex_ops : list (op xR) :=
  [AddPoint2 (z 0) (z 1); AddPoint2 (z 1) (z 1); AddLine 0 1; NewCircle 0 (z 1); AddPrimitive (PCircle 0); Constrain (FixPoint 0 (z 1) (z 0))].
Definition ex_more : list (op xR) := [SetData [z 1; z 0; z 1; z 1; z 2]; PrimZero (PPoint 0)].
Definition ex_heap (x y r : xR) : heap xR :=
  mkHeap [Point2_new x y; Point2_new (z 1) (z 1)] [mkLine 0 1] [] [Circle_new 0 r] [FixPoint 0 (z 1) (z 0)].
Definition ex_sketch : sketch := mkSketch [(0%N, PPoint 0); (1%N, PPoint 1); (2%N, PLine 0); (3%N, PCircle 0)] 4%N [0].
Lemma ex_run pinv : exists rs, run pinv init ex_ops rs (ex_heap (z 0) (z 1) (z 1), ex_sketch).
Proof. exists [RetLoc 0; RetLoc 1; RetLoc 0; RetLoc 0; RetId 3%N; RetLoc 0]. unfold ex_ops. go. Qed.
Lemma ex_run_more pinv : exists rs, run pinv (ex_heap (z 0) (z 1) (z 1), ex_sketch) ex_more rs (ex_heap (z 1) (z 0) (z 2), ex_sketch).
Proof. exists [RetOk; RetOk]. unfold ex_more. go. Qed.
Example C75_example : forall pinv, exists rs st rs' st',
  run pinv init ex_ops rs st /\ run pinv st ex_more rs' st' /\
  cell_ok (fst st) (PCircle 0) /\ cell_ok (fst st) (PLine 0) /\ 0 < length (h_cons (fst st)) /\
  Forall (fun o => repoints_cell (PCircle 0) o = false) ex_more /\ Forall (fun o => repoints_cell (PLine 0) o = false) ex_more /\
  Forall (fun o => writes_con 0 o = false) ex_more.
Proof.
  intros pinv. destruct (ex_run pinv) as [rs R]. destruct (ex_run_more pinv) as [rs' R']. exists rs. eexists. exists rs'. eexists.
  split; [exact R|]. split; [exact R'|]. cbn. repeat split; try lia; repeat constructor.
Qed.
(** The parameters are those at the time of the call: the copy does not follow the sketch. *)
Theorem C75_data_refuted : forall pinv, exists (st st' : state xR) os rs c,
  reachable pinv st /\ run pinv st os rs st' /\ cell_ok (fst st) c /\
  Forall (fun o => repoints_cell c o = false) os /\ val_data (to_primitive (fst st) c) <> prim_data (fst st') c.
Proof.
  intros pinv. destruct (ex_run pinv) as [rs R]. destruct (ex_run_more pinv) as [rs' R'].
  exists (ex_heap (z 0) (z 1) (z 1), ex_sketch), (ex_heap (z 1) (z 0) (z 2), ex_sketch), ex_more, rs', (PCircle 0).
  split; [exists ex_ops, rs; exact R|]. split; [exact R'|]. split; [cbn; lia|]. split; [repeat constructor|].
  cbn. unfold z. intros E. injection E as E. lra.
Qed.

(** ** C76: == and partial_cmp on Primitive and Constraint *)

(** In any state of the cells, both are symmetric, transitive, dual and consistent with one another, as the documentation
    of PartialEq and PartialOrd demands. *)
Theorem C76_exact : forall h : heap xR, comparable (primitive_eq h) (primitive_cmp h) /\ comparable (con_eq h) (con_cmp h).
Proof. intros h. split; [exact (c_primitive f64_R h) | exact (c_con f64_R h)]. Qed.
Theorem C76_binary64 : forall (L : libm) (h : heap spec_float),
  comparable (primitive_eq (A := ArithF L) h) (primitive_cmp (A := ArithF L) h) /\
  comparable (con_eq (A := ArithF L) h) (con_cmp (A := ArithF L) h).
Proof. intros L h. split; [exact (c_primitive (f64_B L) h) | exact (c_con (f64_B L) h)]. Qed.
(** A primitive is equal to itself exactly if no NaN is among the parameters and cached gradients of itself and its points. *)
Theorem C76_reflexive : forall {F} {A : Arith F} (h : heap F) c,
  primitive_eq h (to_primitive h c) (to_primitive h c) = true <->
  Forall (fun d => Forall (fun x => feq x x = true) (prim_data h d ++ prim_grad h d)) (c :: prim_refs h c).
Proof. intros F A. exact (@self_equal F A). Qed.
(** Equal constraints have the same loss (exact arithmetic). *)
Theorem C76_equal_loss : forall (h : heap xR) c d, con_eq h c d = true -> loss_value h c = loss_value h d.
Proof. exact equal_loss. Qed.
(** A point is less than another one at a different position exactly if neither coordinate is greater. *)
Theorem C76_point_less : forall (h : heap xR) p q a b c d, p_data p = (Fin a, Fin b) -> p_data q = (Fin c, Fin d) -> (a, b) <> (c, d) ->
  (primitive_cmp h (VPoint p) (VPoint q) = Some Lt <-> (a <= c /\ b <= d)%R).
Proof. intros h p q a b c d. exact (point_less p q a b c d). Qed.
(** Unlike the comparison of handles, [==] does not tell two objects apart, and it is not reflexive on states a program can reach. *)
Theorem C76_identity_refuted : forall pinv, exists (st : state xR) c d, reachable pinv st /\ registered (snd st) c /\ registered (snd st) d /\
  pcell_eqb c d = false /\ primitive_eq (fst st) (to_primitive (fst st) c) (to_primitive (fst st) d) = true.
Proof.
  intros pinv. exists (mkHeap [Point2_new (z 1) (z 2); Point2_new (z 1) (z 2)] [] [] [] [], mkSketch [(0%N, PPoint 0); (1%N, PPoint 1)] 2%N []), (PPoint 0), (PPoint 1).
  split; [exists [AddPoint2 (z 1) (z 2); AddPoint2 (z 1) (z 2)], [RetLoc 0; RetLoc 1]; go|].
  split; [exists 0%N; reflexivity|]. split; [exists 1%N; reflexivity|]. split; [reflexivity|].
  cbn. unfold point_eq. cbn. unfold Reqb. repeat (destruct (Req_EM_T _ _); [|contradiction]). reflexivity.
Qed.
Theorem C76_reflexive_refuted : forall pinv, exists (st : state xR) c, reachable pinv st /\ registered (snd st) c /\
  primitive_eq (fst st) (to_primitive (fst st) c) (to_primitive (fst st) c) = false.
Proof.
  intros pinv. exists (mkHeap [Point2_new NaN (z 2)] [] [] [] [], mkSketch [(0%N, PPoint 0)] 1%N []), (PPoint 0).
  split; [exists [AddPoint2 NaN (z 2)], [RetLoc 0]; go|]. split; [exists 0%N; reflexivity|]. reflexivity.
Qed.
(** the order distinguishes three cases, and equality does not compare addresses *)
Example C76_example : let pt x y := VPoint (Point2_new (z x) (z y)) in let h := ex_heap (z 0) (z 1) (z 1) in
  primitive_cmp h (pt 0 1)%Z (pt 1 1)%Z = Some Lt /\ primitive_cmp h (pt 0 1)%Z (pt 1 0)%Z = None /\
  primitive_cmp h (VLine (mkLine 0 1)) (VCircle (Circle_new 0 (z 1))) = Some Lt /\
  con_eq h (EuclideanDistance 0 1 (z 2)) (EuclideanDistance 0 1 (z 2)) = true.
Proof.
  cbv zeta. unfold primitive_cmp, point_cmp, con_eq, cell_eq_point, point_eq, f0. rewrite ?vec2_join. unfold f64_cmp, fge. cbn. unfold Rleb, Reqb.
  repeat (match goal with |- context [Rle_dec ?a ?b] => destruct (Rle_dec a b); try (exfalso; lra)
                        | |- context [Req_EM_T ?a ?b] => destruct (Req_EM_T a b); try contradiction end). repeat split.
Qed.

(** ** C77: the constant gradient matrices of arcs and circles (exact arithmetic)

    Each matrix times the vector of all parameters (centre, then own parameters) is the quantity it is the gradient of, so it
    is the Jacobian of that quantity; and a row vector times the matrix is the row to be passed to add_to_gradient. *)
Theorem C77_arc : forall (h : heap xR) l, let a := getA h l in let v := prim_data h (PPoint (a_center a)) ++ prim_data h (PArc l) in
  all_finite v = true ->
  mvec arc_center_gradient v = prim_data h (PPoint (a_center a)) /\ mvec arc_radius_gradient v = [a_radius a] /\
  mvec arc_start_angle_gradient v = [a_sa a] /\ mvec arc_end_angle_gradient v = [a_ea a].
Proof. exact arc_jacobians. Qed.
Theorem C77_circle : forall (h : heap xR) l, let c := getC h l in let v := prim_data h (PPoint (c_center c)) ++ prim_data h (PCircle l) in
  all_finite v = true ->
  mvec circle_center_gradient v = prim_data h (PPoint (c_center c)) /\ mvec circle_radius_gradient v = [c_radius c].
Proof. exact circle_jacobians. Qed.
Example C77_example : all_finite (prim_data (ex_heap (z 0) (z 1) (z 1)) (PPoint 0) ++ prim_data (ex_heap (z 0) (z 1) (z 1)) (PCircle 0)) = true.
Proof. reflexivity. Qed.
Theorem C77_rows : forall a b : R,
  rowmul 5 (map Fin [a; b]) arc_center_gradient = map Fin [a; b; 0; 0; 0]%R /\
  rowmul 5 [Fin a] arc_radius_gradient = map Fin [0; 0; a; 0; 0]%R /\
  rowmul 5 [Fin a] arc_start_angle_gradient = map Fin [0; 0; 0; a; 0]%R /\
  rowmul 5 [Fin a] arc_end_angle_gradient = map Fin [0; 0; 0; 0; a]%R /\
  rowmul 3 (map Fin [a; b]) circle_center_gradient = map Fin [a; b; 0]%R /\
  rowmul 3 [Fin a] circle_radius_gradient = map Fin [0; 0; a]%R.
Proof. intros a b. destruct (arc_rows a b) as (? & ? & ? & ?). destruct (circle_rows a b). repeat split; assumption. Qed.

Print Assumptions C75_copy.
Print Assumptions C75_references.
Print Assumptions C75_line.
Print Assumptions C75_constraint.
Print Assumptions C75_data_refuted.
Print Assumptions C76_exact.
Print Assumptions C76_binary64.
Print Assumptions C76_reflexive.
Print Assumptions C76_equal_loss.
Print Assumptions C76_point_less.
Print Assumptions C76_identity_refuted.
Print Assumptions C76_reflexive_refuted.
Print Assumptions C77_arc.
Print Assumptions C77_circle.
Print Assumptions C77_rows.
