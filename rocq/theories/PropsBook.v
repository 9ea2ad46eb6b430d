(** * C01 - C11: registration, references, data vector *)
From Coq Require Import List ZArith NArith Arith Bool Lia Sorted Reals.
From Verif Require Import Arith Vec Prim Cons Sketch Solve Api Spec ArithR
  HeapLemmas SolveLemmas BookLemmas WfLemmas DataLemmas SpecLemmas BookWitness.
Import ListNotations.

(** ** A concrete history used to show that hypotheses can be met *)
Definition no_pinv : mat xR -> xR -> pinv_res (mat xR) := fun _ _ => PErr.
Definition q (z : Z) : xR := Fin (IZR z).
(* p0 = (0,0), p1 = (3,4), a line between them, a horizontal constraint on it, an arc *)
Definition ex_ops : list (op xR) :=
  [AddPoint2 (q 0) (q 0); AddPoint2 (q 3) (q 4); AddLine 0 1; Constrain (HorizontalLine 0);
   AddArc 0 (q 1) false (q 0) (q 1)].
Definition ex_rets : list (ret xR) := [RetLoc 0; RetLoc 1; RetLoc 0; RetLoc 0; RetLoc 0].
Definition ex_heap : heap xR :=
  mkHeap [Point2_new (q 0) (q 0); Point2_new (q 3) (q 4)] [mkLine 0 1]
         [Arc_new 0 (q 1) false (q 0) (q 1)] [] [HorizontalLine 0].
Definition ex_sketch : sketch :=
  mkSketch [(0%N, PPoint 0); (1%N, PPoint 1); (2%N, PLine 0); (3%N, PArc 0)] 4%N [0].

Ltac ok := simpl; repeat split; repeat constructor; simpl; try lia.
Ltac go := repeat (first [apply run_nil | eapply run_cons; [ok | reflexivity |]]).

Example ex_run : run no_pinv init ex_ops ex_rets (ex_heap, ex_sketch).
Proof. unfold ex_ops, ex_rets. go. Qed.
Example ex_few : few (length ex_ops).
Proof. reflexivity. Qed.
Example ex_valid : valid ex_heap ex_sketch.
Proof. exact (reachable_valid no_pinv _ _ _ ex_run ex_few). Qed.

(** every sketch built by fewer than 2^64 - 1 calls is valid *)
Theorem valid_sketches : forall (F : Type) (A : Arith F) pinv os rs st,
  run pinv init os rs st -> few (length os) -> valid (fst st) (snd st).
Proof. exact @reachable_valid. Qed.

(** ** C01 *)

(** An id that becomes registered by a call was not registered at any earlier moment. *)
Theorem C01_ids_fresh : forall (F : Type) (A : Arith F) pinv os1 rs1 st1 os2 rs2 st2 o st3 r id c,
  run pinv init os1 rs1 st1 -> run pinv st1 os2 rs2 st2 -> few (length (os1 ++ os2)) ->
  step pinv st2 o = (st3, r) ->
  get_primitive_by_id (snd st2) id = None -> get_primitive_by_id (snd st3) id = Some c ->
  get_primitive_by_id (snd st1) id = None.
Proof. exact @C01_fresh. Qed.

(** add_primitive returns an id no earlier add_primitive returned; it denotes the new cell
    and nothing else changes. *)
Theorem C01_add_primitive : forall (F : Type) (A : Arith F) pinv os rs st c st' id,
  run pinv init os rs st -> few (length os) ->
  step pinv st (AddPrimitive c) = (st', RetId id) ->
  ~ In (RetId id) rs /\ get_primitive_by_id (snd st) id = None /\
  get_primitive_by_id (snd st') id = Some c /\ get_primitive_id (snd st') c = Some id /\
  (forall id', id' <> id -> get_primitive_by_id (snd st') id' = get_primitive_by_id (snd st) id').
Proof. exact @C01_returned. Qed.

(** The handle-returning helpers register the new cell under such an id as well. *)
Theorem C01_add_helpers : forall (F : Type) (A : Arith F) pinv os rs st o st' l c,
  run pinv init os rs st -> few (length os) ->
  step pinv st o = (st', RetLoc l) ->
  match o with
  | AddPoint2 _ _ => Some (PPoint l) | AddLine _ _ => Some (PLine l)
  | AddArc _ _ _ _ _ => Some (PArc l) | _ => None
  end = Some c ->
  exists id, ~ In (RetId id) rs /\ get_primitive_by_id (snd st) id = None /\
    get_primitive_by_id (snd st') id = Some c /\ get_primitive_id (snd st') c = Some id /\
    (forall id', id' <> id -> get_primitive_by_id (snd st') id' = get_primitive_by_id (snd st) id').
Proof. exact @C01_helper. Qed.

(** An id keeps denoting its primitive until delete_primitive(id). *)
Theorem C01_ids_stable : forall (F : Type) (A : Arith F) pinv os1 rs1 st1 os2 rs2 st2 id c,
  run pinv init os1 rs1 st1 -> run pinv st1 os2 rs2 st2 -> few (length (os1 ++ os2)) ->
  get_primitive_by_id (snd st1) id = Some c -> ~ In (DeletePrimitive id) os2 ->
  get_primitive_by_id (snd st2) id = Some c.
Proof. exact @C01_stable. Qed.

(** Non-vacuity: ids 0..3 are in use; after deleting 1 and adding the point again it gets 4. *)
Example C01_example :
  exists st, run no_pinv init (ex_ops ++ [DeletePrimitive 1; AddPrimitive (PPoint 1)])
                 (ex_rets ++ [RetOk; RetId 4]) st /\
             get_primitive_by_id (snd st) 1 = None /\ get_primitive_by_id (snd st) 4 = Some (PPoint 1).
Proof. eexists; split; [unfold ex_ops, ex_rets; simpl app; go | split; reflexivity]. Qed.

(** ** C02 *)
Theorem C02_no_duplicates : forall (F : Type) (A : Arith F) (h : heap F) s id1 id2 c,
  valid h s -> get_primitive_by_id s id1 = Some c -> get_primitive_by_id s id2 = Some c -> id1 = id2.
Proof. exact @valid_by_id_inj. Qed.

Theorem C02_lookup_inverse : forall (F : Type) (A : Arith F) (h : heap F) s c id,
  valid h s -> (get_primitive_id s c = Some id <-> get_primitive_by_id s id = Some c).
Proof. exact @valid_id_iff. Qed.

(** Adding a registered cell is always rejected; the error is PrimitiveAlreadyInSketch when
    its references are registered, which the check tests first. *)
Theorem C02_already_present : forall (F : Type) (A : Arith F) (h : heap F) s c,
  In c (map snd (s_prims s)) ->
  add_primitive h s c =
    (s, RErr (if forallb (fun r => existsb (pcell_eqb r) (map snd (s_prims s))) (prim_refs h c)
              then PrimitiveAlreadyInSketch else MissingSketchReferences)).
Proof. exact @C02_present. Qed.

Theorem C02_get_all_points : forall (F : Type) (A : Arith F) (h : heap F) s,
  valid h s ->
  (forall id p, In (id, p) (get_all_points h s) <->
                exists l, get_primitive_by_id s id = Some (PPoint l) /\ p = getP h l) /\
  StronglySorted N.lt (map fst (get_all_points h s)).
Proof. exact @C02_points_all. Qed.

Example C02_example :
  get_primitive_id ex_sketch (PLine 0) = Some 2%N /\
  get_all_points ex_heap ex_sketch = [(0%N, getP ex_heap 0); (1%N, getP ex_heap 1)] /\
  add_primitive ex_heap ex_sketch (PLine 0) = (ex_sketch, RErr PrimitiveAlreadyInSketch).
Proof. repeat split. Qed.

(** ** C03 *)
Theorem C03_references_closed : forall (F : Type) (A : Arith F) pinv os rs st,
  run pinv init os rs st -> few (length os) ->
  (forall o, In o os -> is_repointing o = false /\ is_delete_primitive o = false) ->
  refs_closed (fst st) (snd st).
Proof. exact @C03_closed. Qed.

Theorem C03_primitive_missing_reference : forall (F : Type) (A : Arith F) (h : heap F) s c r,
  In r (prim_refs h c) -> ~ In r (map snd (s_prims s)) ->
  add_primitive h s c = (s, RErr MissingSketchReferences).
Proof. exact @C03_missing_prim. Qed.

Theorem C03_constraint_missing_reference : forall (F : Type) (h : heap F) s k r,
  In r (con_refs (getK h k)) -> ~ In r (map snd (s_prims s)) ->
  add_constraint h s k = (s, RErr MissingSketchReferences).
Proof. exact @C03_missing_con. Qed.

(** add_primitive succeeds exactly when all references are registered and the cell is not *)
Theorem C03_add_primitive_succeeds : forall (F : Type) (A : Arith F) (h : heap F) s c,
  (exists s' id, add_primitive h s c = (s', ROk id)) <->
  (forall r, In r (prim_refs h c) -> In r (map snd (s_prims s))) /\ ~ In c (map snd (s_prims s)).
Proof. exact @C03_succeeds. Qed.

Example C03_example :
  (forall o, In o ex_ops -> is_repointing o = false /\ is_delete_primitive o = false) /\
  add_primitive ex_heap sketch_new (PLine 0) = (sketch_new, RErr MissingSketchReferences).
Proof. split; [|reflexivity]. simpl. intros o H. intuition (subst; auto). Qed.

(** ** C04: refuted by the faithful model *)
Theorem C04_refuted : exists os rs st st',
  run no_pinv init os rs st /\ refs_closed (fst st) (snd st) /\
  step no_pinv st (DeletePrimitive 0) = (st', RetOk) /\ ~ refs_closed (fst st') (snd st').
Proof. exact C04_witness. Qed.

(** It holds when nothing registered refers to the deleted primitive. *)
Theorem C04_delete_unreferenced_partial : forall (F : Type) (A : Arith F) (h : heap F) s id c s',
  valid h s -> refs_closed h s -> get_primitive_by_id s id = Some c ->
  (forall c', registered s c' -> ~ In c (prim_refs h c')) ->
  (forall k, In k (s_cons s) -> ~ In c (con_refs (getK h k))) ->
  delete_primitive s id = (s', ROk tt) -> refs_closed h s'.
Proof. exact @C04_unreferenced. Qed.

(** ** C05 *)
Theorem C05_add_constraint : forall (F : Type) (h : heap F) s k,
  add_constraint h s k =
    if forallb (fun r => existsb (pcell_eqb r) (map snd (s_prims s))) (con_refs (getK h k))
    then if existsb (Nat.eqb k) (s_cons s) then (s, RErr ConstraintAlreadyInSketch)
         else (mkSketch (s_prims s) (s_next s) (s_cons s ++ [k]), ROk tt)
    else (s, RErr MissingSketchReferences).
Proof. exact @C05_add. Qed.

Theorem C05_constraints_once : forall (F : Type) (A : Arith F) pinv os rs st,
  run pinv init os rs st -> few (length os) ->
  NoDup (s_cons (snd st)) /\ get_num_constraints (snd st) = length (s_cons (snd st)) /\
  get_num_primitives (snd st) = length (s_prims (snd st)).
Proof. exact @C05_once. Qed.

(** without deletions, the registered constraints are those added, in the order of the calls *)
Theorem C05_insertion_order : forall (F : Type) (A : Arith F) pinv st os rs st',
  run pinv st os rs st' -> (forall k, ~ In (DeleteConstraint k) os) ->
  s_cons (snd st') = s_cons (snd st) ++ added_constraints os rs.
Proof. exact @C05_order. Qed.

Example C05_example : exists st,
  run no_pinv init (ex_ops ++ [AddConstraint 0; Constrain (VerticalLine 0)])
      (ex_rets ++ [RetErr ConstraintAlreadyInSketch; RetLoc 1]) st /\ s_cons (snd st) = [0; 1].
Proof. eexists; split; [unfold ex_ops, ex_rets; simpl app; go | reflexivity]. Qed.

(** ** C06: refuted (the retain predicate is inverted) *)
Theorem C06_refuted :
  (exists os rs st k, run no_pinv init os rs st /\ In k (s_cons (snd st)) /\
     snd (delete_constraint (snd st) k) = ROk tt /\
     s_cons (fst (delete_constraint (snd st) k)) = [k]) /\
  (exists os rs st k, run no_pinv init os rs st /\ In k (s_cons (snd st)) /\
     delete_constraint (snd st) k = (snd st, RErr ConstraintNotFound)).
Proof. exact C06_witness. Qed.

(** What the code does instead, for every sketch: only the given constraint survives. *)
Theorem C06_actual_behaviour_partial : forall s k, NoDup (s_cons s) ->
  delete_constraint s k =
    (mkSketch (s_prims s) (s_next s) (if in_dec Nat.eq_dec k (s_cons s) then [k] else []),
     if Nat.eqb (length (s_cons s)) (if in_dec Nat.eq_dec k (s_cons s) then 1 else 0)
     then RErr ConstraintNotFound else ROk tt).
Proof. exact C06_actual. Qed.

(** ** C07 *)
Theorem C07_rejected_call_changes_nothing : forall (F : Type) (A : Arith F) pinv st o st' e,
  match o with
  | AddPrimitive _ | AddConstraint _ | DeletePrimitive _ | DeleteConstraint _ => True
  | _ => False
  end ->
  step pinv st o = (st', RetErr e) -> st' = st.
Proof. exact @C07_error. Qed.

(** The allocating helpers leave the sketch and all existing data unchanged on error. *)
Theorem C07_rejected_helper : forall (F : Type) (A : Arith F) pinv st o st' e,
  match o with
  | AddPoint2 _ _ | AddLine _ _ | AddArc _ _ _ _ _ | Constrain _ => True
  | _ => False
  end ->
  step pinv st o = (st', RetErr e) ->
  snd st' = snd st /\ forall c, cell_ok (fst st) c -> prim_data (fst st') c = prim_data (fst st) c.
Proof. exact @C07_helper. Qed.

Theorem C07_delete_primitive : forall (F : Type) (A : Arith F) (h : heap F) s id, valid h s ->
  (get_primitive_by_id s id = None -> delete_primitive s id = (s, RErr (PrimitiveNotFound id))) /\
  (forall c, get_primitive_by_id s id = Some c ->
     exists s', delete_primitive s id = (s', ROk tt) /\ s_cons s' = s_cons s /\ s_next s' = s_next s /\
     S (get_num_primitives s') = get_num_primitives s /\ get_primitive_by_id s' id = None /\
     forall id', id' <> id -> get_primitive_by_id s' id' = get_primitive_by_id s id').
Proof. exact @C07_delete. Qed.

Example C07_example :
  step no_pinv (ex_heap, ex_sketch) (AddPrimitive (PPoint 1)) =
    ((ex_heap, ex_sketch), RetErr PrimitiveAlreadyInSketch) /\
  step no_pinv (ex_heap, ex_sketch) (DeletePrimitive 9) =
    ((ex_heap, ex_sketch), RetErr (PrimitiveNotFound 9)).
Proof. split; reflexivity. Qed.

(** ** C08 *)
Theorem C08_degrees_of_freedom : forall (F : Type) (A : Arith F) (h : heap F) s,
  get_n_dofs h s = 2 * how_many is_point s + 3 * how_many is_arc s + how_many is_circle s /\
  length (get_data h s) = get_n_dofs h s.
Proof. exact @C08_count. Qed.

(** The parameters of the primitive with id [id] are at [position s id], which counts the
    parameters of the primitives with smaller ids. *)
Theorem C08_layout_by_id : forall (F : Type) (A : Arith F) (h : heap F) s id c,
  valid h s -> get_primitive_by_id s id = Some c ->
  forall i, i < n_params c ->
  nth_error (get_data h s) (position s id + i) =
  nth_error (match c with
             | PPoint l => [p_x (getP h l); p_y (getP h l)]
             | PLine _ => []
             | PArc l => [a_radius (getA h l); a_sa (getA h l); a_ea (getA h l)]
             | PCircle l => [c_radius (getC h l)]
             end) i.
Proof. exact @C08_layout. Qed.

Example C08_example :
  get_n_dofs ex_heap ex_sketch = 7 /\ position ex_sketch 3 = 4 /\
  get_data ex_heap ex_sketch = [q 0; q 0; q 3; q 4; q 1; q 0; q 1].
Proof. repeat split. Qed.

(** ** C09 *)
Theorem C09_set_then_get : forall (F : Type) (A : Arith F) (h : heap F) s v h',
  valid h s -> set_data s v h = (h', Val tt) -> get_data h' s = v.
Proof. exact @C09_set_get. Qed.

(** Writing back the current data changes no cell at all. *)
Theorem C09_get_then_set : forall (F : Type) (A : Arith F) (h : heap F) s,
  valid h s -> finite_data h s -> set_data s (get_data h s) h = (h, Val tt).
Proof. exact @C09_get_set. Qed.

Theorem C09_panics_iff : forall (F : Type) (A : Arith F) (h : heap F) s v,
  (exists h', set_data s v h = (h', Panic)) <->
  length v <> get_n_dofs h s \/ exists x, In x v /\ ffin x = false.
Proof. exact @C09_panic. Qed.

Theorem C09_wrong_length_writes_nothing : forall (F : Type) (A : Arith F) (h : heap F) s v,
  length v <> get_n_dofs h s -> set_data s v h = (h, Panic).
Proof. intros F A h s v. exact (set_data_wrong_length s v h). Qed.

Example C09_example :
  finite_data ex_heap ex_sketch /\
  exists h', set_data ex_sketch [q 1; q 2; q 3; q 4; q 5; q 6; q 7] ex_heap = (h', Val tt).
Proof.
  split; [|eexists; reflexivity]. intros c [id H]. apply bt_get_In in H. simpl in H.
  repeat (destruct H as [H|H]; [injection H as <- <-; repeat constructor|]). destruct H.
Qed.

(** ** C10 *)
Theorem C10_set_data_frame : forall (F : Type) (A : Arith F) (h : heap F) s v,
  let h' := fst (set_data s v h) in
  same_structure h h' /\ (forall c, prim_grad h' c = prim_grad h c) /\
  (forall c, ~ In c (map snd (s_prims s)) -> prim_data h' c = prim_data h c).
Proof. exact @C10_frame. Qed.

(** Everything that refers to a registered point sees the coordinates written for it. *)
Theorem C10_shared_points_updated : forall (F : Type) (A : Arith F) (h : heap F) s v h' id l,
  valid h s -> set_data s v h = (h', Val tt) -> get_primitive_by_id s id = Some (PPoint l) ->
  exists x y, nth_error v (position s id) = Some x /\ nth_error v (position s id + 1) = Some y /\
    pdata h' l = (x, y) /\
    (forall ln, l_start (getL h ln) = l -> line_start h' ln = (x, y)) /\
    (forall ln, l_end (getL h ln) = l -> line_end h' ln = (x, y)) /\
    (forall a, a_center (getA h a) = l -> pdata h' (a_center (getA h' a)) = (x, y)) /\
    (forall c, c_center (getC h c) = l -> pdata h' (c_center (getC h' c)) = (x, y)).
Proof. exact @C10_shared. Qed.

Example C10_example : exists h',
  set_data ex_sketch [q 1; q 2; q 3; q 4; q 5; q 6; q 7] ex_heap = (h', Val tt) /\
  line_start h' 0 = (q 1, q 2) /\ line_end h' 0 = (q 3, q 4).
Proof. eexists; split; [reflexivity | split; reflexivity]. Qed.

(** ** C11: refuted, a clone shares every cell *)
Theorem C11_refuted : exists h s v h',
  valid h s /\ set_data (sketch_clone s) v h = (h', Val tt) /\ get_data h' s <> get_data h s.
Proof. exact C11_witness. Qed.

(** What holds: the clone has its own registration tables, and writing data through the
    clone writes the very same data into the original. *)
Theorem C11_clone_shares_data_partial : forall (F : Type) (A : Arith F) (h : heap F) s v h',
  valid h s -> set_data (sketch_clone s) v h = (h', Val tt) ->
  get_data h' s = v /\ get_data h (sketch_clone s) = get_data h s.
Proof. exact @C11_shares. Qed.

Print Assumptions valid_sketches.
Print Assumptions C01_ids_fresh.
Print Assumptions C01_add_primitive.
Print Assumptions C01_add_helpers.
Print Assumptions C01_ids_stable.
Print Assumptions C02_no_duplicates.
Print Assumptions C02_lookup_inverse.
Print Assumptions C02_already_present.
Print Assumptions C02_get_all_points.
Print Assumptions C03_references_closed.
Print Assumptions C03_primitive_missing_reference.
Print Assumptions C03_constraint_missing_reference.
Print Assumptions C03_add_primitive_succeeds.
Print Assumptions C04_refuted.
Print Assumptions C04_delete_unreferenced_partial.
Print Assumptions C05_add_constraint.
Print Assumptions C05_constraints_once.
Print Assumptions C05_insertion_order.
Print Assumptions C06_refuted.
Print Assumptions C06_actual_behaviour_partial.
Print Assumptions C07_rejected_call_changes_nothing.
Print Assumptions C07_rejected_helper.
Print Assumptions C07_delete_primitive.
Print Assumptions C08_degrees_of_freedom.
Print Assumptions C08_layout_by_id.
Print Assumptions C09_set_then_get.
Print Assumptions C09_get_then_set.
Print Assumptions C09_panics_iff.
Print Assumptions C09_wrong_length_writes_nothing.
Print Assumptions C10_set_data_frame.
Print Assumptions C10_shared_points_updated.
Print Assumptions C11_refuted.
Print Assumptions C11_clone_shares_data_partial.
