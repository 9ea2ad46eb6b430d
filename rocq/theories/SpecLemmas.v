(** * The vocabulary of Spec.v in terms of the proof library *)
From Coq Require Import List ZArith NArith Arith Bool Lia Sorted.
From Verif Require Import Arith Vec Prim Cons Sketch Solve Api Spec HeapLemmas SolveLemmas BookLemmas WfLemmas DataLemmas.
Import ListNotations.

Section L.
Context {F : Type} {A : Arith F}.
Variable pinv : mat F -> F -> pinv_res (mat F).
Implicit Types h : heap F.

Lemma registered_cells s c : NoDup (map fst (s_prims s)) -> (registered s c <-> In c (cells s)).
Proof.
  intros Hn. rewrite In_cells. split; intros [id H]; exists id.
  - now apply bt_get_In.
  - now apply bt_In_get.
Qed.
Lemma registered_sub s c : registered s c -> In c (cells s).
Proof. intros [id H]. apply In_cells. exists id. now apply bt_get_In. Qed.
Lemma valid_keys h s : valid h s -> NoDup (map fst (s_prims s)).
Proof. intros V; apply sorted_nodup, V. Qed.
Lemma valid_reg h s c : valid h s -> (registered s c <-> In c (cells s)).
Proof. intros V; apply registered_cells. now apply (valid_keys h). Qed.
Lemma valid_live h s : valid h s -> Forall (cell_ok h) (cells s).
Proof. intros V. apply Forall_forall. intros c Hc. apply V. now apply (valid_reg h). Qed.

Lemma few_lt n : few n -> (N.of_nat n + 1 < u64N)%N.
Proof. auto. Qed.

Lemma book_reg s c : book s -> (registered s c <-> In c (cells s)).
Proof. intros B; apply registered_cells. now apply book_keys. Qed.

Lemma run_all os rs st : run pinv init os rs st -> few (length os) -> book (snd st) /\ wf st.
Proof.
  intros H Hn. apply few_lt in Hn. split.
  - eapply (run_init_book pinv); eauto. lia.
  - eapply (run_wf pinv); eauto; [apply wf_init | apply book_new | simpl; lia].
Qed.
Lemma reachable_valid os rs st : run pinv init os rs st -> few (length os) -> valid (fst st) (snd st).
Proof.
  intros H Hn. destruct (run_all _ _ _ H Hn) as [[B1 B2 B3 B4] [W1 W2 W3]].
  rewrite Forall_forall in W2, W3. split; auto. intros c Hc. apply W2. now apply registered_sub.
Qed.
Lemma same_structure_iff h h' : same_structure h h' <-> struct_eq h h'.
Proof. reflexivity. Qed.
Lemma finite_iff h s : NoDup (map fst (s_prims s)) -> (finite_data h s <-> all_finite (get_data h s) = true).
Proof.
  intros Hn. rewrite get_data_finite_iff. unfold finite_data. split; intros H c Hc.
  - apply forallb_forall. apply Forall_forall. apply H. now apply registered_cells.
  - apply Forall_forall. apply forallb_forall. apply H. now apply registered_sub.
Qed.
Lemma position_offset s id : position s id = offset_in (s_prims s) id.
Proof.
  unfold position. induction (s_prims s) as [|[k c] m IH]; simpl; auto.
Qed.
Lemma closed_iff st : book (snd st) -> (refs_closed (fst st) (snd st) <-> closed st).
Proof.
  intros B. unfold refs_closed, closed. split; intros [H1 H2]; split; intros.
  - eapply book_reg, H1; eauto. now apply book_reg.
  - eapply book_reg, H2; eauto.
  - eapply book_reg; eauto. eapply H1; eauto. now apply book_reg.
  - eapply book_reg; eauto.
Qed.

(** C03 *)
Lemma C03_closed os rs st : run pinv init os rs st -> few (length os) ->
  (forall o, In o os -> is_repointing o = false /\ is_delete_primitive o = false) ->
  refs_closed (fst st) (snd st).
Proof.
  intros H Hn Ho. destruct (run_all _ _ _ H Hn) as [B W]. apply closed_iff; auto.
  apply few_lt in Hn.
  eapply (run_closed pinv); [exact H | apply wf_init | apply book_new | simpl; lia | | apply closed_init].
  intros o Hi. destruct (Ho o Hi) as [H1 H2]. split; [exact H1|]. intros id ->; discriminate.
Qed.
Lemma C03_missing_prim h s c r : In r (prim_refs h c) -> ~ In r (map snd (s_prims s)) ->
  add_primitive h s c = (s, RErr MissingSketchReferences).
Proof.
  intros H1 H2. destruct (add_primitive h s c) as [s' [id|e]] eqn:E.
  - exfalso. unfold add_primitive in E. destruct (forallb _ _) eqn:E1; simpl in E; [|discriminate].
    rewrite forallb_forall in E1. apply H2. apply has_prim_In; auto.
  - apply add_primitive_err in E as [-> [[-> _]|(-> & E & _)]]; auto.
    rewrite Forall_forall in E. exfalso; apply H2; apply E; auto.
Qed.
Lemma C03_missing_con h s k r : In r (con_refs (getK h k)) -> ~ In r (map snd (s_prims s)) ->
  add_constraint h s k = (s, RErr MissingSketchReferences).
Proof.
  intros H1 H2. destruct (add_constraint h s k) as [s' [id|e]] eqn:E.
  - exfalso. apply add_constraint_ok in E as (_&_&_&_&E). rewrite Forall_forall in E. apply H2, E; auto.
  - apply add_constraint_err in E as [-> [[-> _]|(-> & E & _)]]; auto.
    rewrite Forall_forall in E. exfalso; apply H2; apply E; auto.
Qed.

(** C02 *)
Lemma C02_present h s c : In c (map snd (s_prims s)) ->
  add_primitive h s c = (s, RErr (if forallb (fun r => existsb (pcell_eqb r) (map snd (s_prims s))) (prim_refs h c)
                                  then PrimitiveAlreadyInSketch else MissingSketchReferences)).
Proof.
  intros Hc. unfold add_primitive.
  replace (forallb (has_prim s) (prim_refs h c)) with (forallb (fun r => existsb (pcell_eqb r) (map snd (s_prims s))) (prim_refs h c)).
  - destruct (forallb _ _); simpl; auto. replace (has_prim s c) with true; auto. symmetry; now apply has_prim_In.
  - induction (prim_refs h c) as [|r l IH]; simpl; auto. f_equal; auto.
    destruct (has_prim s r) eqn:E.
    + apply has_prim_In in E. apply existsb_exists. exists r; split; auto. apply pcell_eqb_refl.
    + apply has_prim_nIn in E. destruct (existsb _ _) eqn:E1; auto. apply existsb_exists in E1 as [x [H1 H2]].
      apply pcell_eqb_eq in H2; subst. contradiction.
Qed.
Lemma C02_points h s id p : valid h s ->
  (In (id, p) (get_all_points h s) <-> exists l, get_primitive_by_id s id = Some (PPoint l) /\ p = getP h l).
Proof.
  intros V. rewrite all_points_In. split; intros (l & H1 & H2); exists l; split; auto.
  - apply bt_In_get; auto. now apply (valid_keys h).
  - now apply bt_get_In.
Qed.
Lemma valid_by_id_inj h s id1 id2 c : valid h s -> get_primitive_by_id s id1 = Some c ->
  get_primitive_by_id s id2 = Some c -> id1 = id2.
Proof.
  intros V H1 H2. apply bt_get_In in H1, H2. eapply cell_inj; eauto. apply V.
Qed.
Lemma valid_id_iff h s c id : valid h s -> (get_primitive_id s c = Some id <-> get_primitive_by_id s id = Some c).
Proof.
  intros V. split; intros H.
  - apply get_primitive_id_In in H. apply bt_In_get; auto. now apply (valid_keys h).
  - apply bt_get_In in H. destruct (get_primitive_id s c) as [id'|] eqn:E.
    + apply get_primitive_id_In in E. f_equal. eapply cell_inj; eauto. apply V.
    + unfold get_primitive_id in E. destruct (find _ _) eqn:E1; [discriminate|].
      eapply find_none in E1; eauto. simpl in E1. rewrite pcell_eqb_refl in E1. discriminate.
Qed.

Lemma pcell_eqb_sym a b : pcell_eqb a b = pcell_eqb b a.
Proof. destruct a, b; simpl; auto; apply Nat.eqb_sym. Qed.
Lemma has_prim_ex s r : existsb (pcell_eqb r) (map snd (s_prims s)) = has_prim s r.
Proof.
  unfold has_prim. induction (s_prims s) as [|[a b] m IHm]; simpl; auto.
  now rewrite IHm, pcell_eqb_sym.
Qed.
(** C05 *)
Lemma C05_add h s k :
  add_constraint h s k =
    if forallb (fun r => existsb (pcell_eqb r) (map snd (s_prims s))) (con_refs (getK h k))
    then if existsb (Nat.eqb k) (s_cons s) then (s, RErr ConstraintAlreadyInSketch)
         else (mkSketch (s_prims s) (s_next s) (s_cons s ++ [k]), ROk tt)
    else (s, RErr MissingSketchReferences).
Proof.
  unfold add_constraint.
  replace (forallb (has_prim s) (con_refs (getK h k))) with (forallb (fun r => existsb (pcell_eqb r) (map snd (s_prims s))) (con_refs (getK h k))).
  - destruct (forallb _ _); simpl; auto. unfold has_con.
    replace (existsb (fun c => Nat.eqb c k) (s_cons s)) with (existsb (Nat.eqb k) (s_cons s)); auto.
    induction (s_cons s); simpl; auto. rewrite IHl, Nat.eqb_sym; auto.
  - induction (con_refs (getK h k)) as [|r l IH]; simpl; auto. f_equal; auto.
    apply has_prim_ex.
Qed.

(** C06 *)
Lemma filter_eqb_in (l : list nat) k : NoDup l -> In k l -> filter (fun c => Nat.eqb c k) l = [k].
Proof.
  induction l as [|x l IH]; simpl; [tauto|]. intros Hn H. inversion Hn; subst.
  destruct (Nat.eqb x k) eqn:E.
  - apply Nat.eqb_eq in E; subst. f_equal. clear - H2. induction l as [|y l IH]; simpl; auto.
    destruct (Nat.eqb y k) eqn:E; [apply Nat.eqb_eq in E; subst; simpl in H2; tauto | apply IH; simpl in H2; tauto].
  - destruct H as [->|H]; [rewrite Nat.eqb_refl in E; discriminate|]. auto.
Qed.
Lemma filter_eqb_notin (l : list nat) k : ~ In k l -> filter (fun c => Nat.eqb c k) l = [].
Proof.
  induction l as [|y l IH]; simpl; auto. intros H.
  destruct (Nat.eqb y k) eqn:E; [apply Nat.eqb_eq in E; subst; tauto | tauto].
Qed.
Lemma C06_actual s k : NoDup (s_cons s) ->
  delete_constraint s k =
    (mkSketch (s_prims s) (s_next s) (if in_dec Nat.eq_dec k (s_cons s) then [k] else []),
     if Nat.eqb (length (s_cons s)) (if in_dec Nat.eq_dec k (s_cons s) then 1 else 0)
     then RErr ConstraintNotFound else ROk tt).
Proof.
  intros Hn. unfold delete_constraint. destruct (in_dec Nat.eq_dec k (s_cons s)) as [H|H].
  - rewrite filter_eqb_in by auto. reflexivity.
  - rewrite filter_eqb_notin by auto. reflexivity.
Qed.

(** C07 *)
Lemma filter_len_le {T} (f : T -> bool) l : length (filter f l) <= length l.
Proof. induction l as [|x l IH]; simpl; auto. destruct (f x); simpl; lia. Qed.
Lemma filter_all_length {T} (f : T -> bool) l : length l = length (filter f l) -> filter f l = l.
Proof.
  induction l as [|x l IH]; simpl; auto. destruct (f x); simpl; intros H.
  - f_equal; auto.
  - pose proof (filter_len_le f l). lia.
Qed.
Lemma C07_error st o st' e : 
  match o with AddPrimitive _ | AddConstraint _ | DeletePrimitive _ | DeleteConstraint _ => True | _ => False end ->
  step pinv st o = (st', RetErr e) -> st' = st.
Proof.
  destruct st as [h s]. intros Ho H. destruct o; try contradiction; cbn [step] in H.
  - destruct (add_primitive h s c) as [s' [x|er]] eqn:E; [discriminate|].
    apply add_primitive_err in E as [-> _]. injection H as <- _. reflexivity.
  - destruct (add_constraint h s k) as [s' [x|er]] eqn:E; [discriminate|].
    apply add_constraint_err in E as [-> _]. injection H as <- _. reflexivity.
  - unfold delete_primitive in H. destruct (bt_get id (s_prims s)); [discriminate|]. now injection H as <- _.
  - unfold delete_constraint in H. destruct (Nat.eqb _ _) eqn:E; [|discriminate]. injection H as <- _.
    apply Nat.eqb_eq in E. apply filter_all_length in E.
    destruct s; simpl in *. f_equal. f_equal. exact E.
Qed.
Lemma C07_helper st o st' e :
  match o with AddPoint2 _ _ | AddLine _ _ | AddArc _ _ _ _ _ | Constrain _ => True | _ => False end ->
  step pinv st o = (st', RetErr e) -> snd st' = snd st /\ forall c, cell_ok (fst st) c -> prim_data (fst st') c = prim_data (fst st) c.
Proof.
  assert (D : forall h x, (forall c, cell_ok h c -> prim_data (fst (allocP h x)) c = prim_data h c)).
  { intros h x c Hc. destruct c; simpl in *; auto. unfold getP; simpl. now rewrite app_nth1. }
  assert (D2 : forall h x, (forall c, cell_ok h c -> prim_data (fst (allocA h x)) c = prim_data h c)).
  { intros h x c Hc. destruct c; simpl in *; auto. unfold getA; simpl. now rewrite app_nth1. }
  destruct st as [h s]. intros Ho H. destruct o; try contradiction; cbn [step] in H.
  - unfold add_point2 in H; simpl in H. destruct (add_primitive _ s _) as [s' [x0|er]] eqn:E; [discriminate|].
    apply add_primitive_err in E as [-> _]. injection H as <- _. split; auto. apply (D h).
  - unfold add_line in H; simpl in H. destruct (add_primitive _ s _) as [s' [x0|er]] eqn:E; [discriminate|].
    apply add_primitive_err in E as [-> _]. injection H as <- _. split; [auto|].
    intros c Hc; destruct c; auto.
  - unfold add_arc in H; simpl in H. destruct (add_primitive _ s _) as [s' [x0|er]] eqn:E; [discriminate|].
    apply add_primitive_err in E as [-> _]. injection H as <- _. split; auto. apply (D2 h).
  - unfold constrain in H. destruct (con_new_ok c); simpl in H; [|discriminate].
    destruct (add_constraint _ s _) as [s' [x0|er]] eqn:E; [discriminate|].
    apply add_constraint_err in E as [-> _]. injection H as <- _. split; [auto|].
    intros x Hx; destruct x; auto.
Qed.
Lemma bt_remove_length k m v : NoDup (map fst m) -> bt_get k m = Some v -> S (length (bt_remove k m)) = length m.
Proof.
  induction m as [|[a b] m IH]; simpl; intros Hn; [discriminate|]. inversion Hn; subst.
  destruct (k =? a)%N; simpl; auto.
Qed.
Lemma C07_delete h s id : valid h s ->
  (get_primitive_by_id s id = None -> delete_primitive s id = (s, RErr (PrimitiveNotFound id))) /\
  (forall c, get_primitive_by_id s id = Some c ->
     exists s', delete_primitive s id = (s', ROk tt) /\ s_cons s' = s_cons s /\ s_next s' = s_next s /\
     S (get_num_primitives s') = get_num_primitives s /\ get_primitive_by_id s' id = None /\
     forall id', id' <> id -> get_primitive_by_id s' id' = get_primitive_by_id s id').
Proof.
  intros V. pose proof (valid_keys _ _ V) as Hn. unfold delete_primitive, get_primitive_by_id. split.
  - intros ->; auto.
  - intros c Hc. rewrite Hc. eexists; split; [reflexivity|]. simpl. repeat split.
    + unfold get_num_primitives; simpl. eapply bt_remove_length; eauto.
    + rewrite bt_get_remove, N.eqb_refl by auto. reflexivity.
    + intros id' Hd. rewrite bt_get_remove by auto. apply N.eqb_neq in Hd. now rewrite Hd.
Qed.

(** C04: the true part *)
Lemma C04_unreferenced h s id c s' : valid h s -> refs_closed h s ->
  get_primitive_by_id s id = Some c ->
  (forall c', registered s c' -> ~ In c (prim_refs h c')) ->
  (forall k, In k (s_cons s) -> ~ In c (con_refs (getK h k))) ->
  delete_primitive s id = (s', ROk tt) -> refs_closed h s'.
Proof.
  intros V [C1 C2] G N1 N2 D. destruct (C07_delete h s id V) as [_ X]. destruct (X c G) as (s1 & E1 & E2 & E3 & E4 & E5 & E6).
  rewrite D in E1. injection E1 as <-.
  assert (R : forall x, registered s x -> x <> c -> registered s' x).
  { intros x [i Hi] Hx. exists i. rewrite E6; auto. intros ->. congruence. }
  assert (R' : forall x, registered s' x -> registered s x).
  { intros x [i Hi]. destruct (N.eq_dec i id) as [->|Hd]; [congruence|]. exists i. now rewrite <- E6. }
  split.
  - intros a r Ha Hr. apply R; [eapply C1; eauto|]. intros ->. eapply N1; eauto.
  - rewrite E2. intros k r Hk Hr. apply R; [eapply C2; eauto|]. intros ->. eapply N2; eauto.
Qed.

(** C08 *)
Lemma C08_dofs h s : get_n_dofs h s = 2 * how_many is_point s + 3 * how_many is_arc s + how_many is_circle s.
Proof.
  rewrite n_dofs_dims. unfold dims, cells, how_many. induction (s_prims s) as [|[k c] m IH]; simpl; auto.
  destruct c; simpl in *; lia.
Qed.
Lemma C08_layout h s id c : valid h s -> get_primitive_by_id s id = Some c ->
  forall i, i < n_params c -> nth_error (get_data h s) (position s id + i) = nth_error (prim_data h c) i.
Proof.
  intros V G i Hi. rewrite position_offset. apply offset_get; auto. apply V.
Qed.

(** C09 *)
Lemma C09_panic h s v : (exists h', set_data s v h = (h', Panic)) <->
  length v <> get_n_dofs h s \/ exists x, In x v /\ ffin x = false.
Proof.
  assert (X : all_finite v = false <-> exists x, In x v /\ ffin x = false).
  { unfold all_finite. induction v as [|a v IH]; simpl.
    - split; [discriminate | intros (x & [] & _)].
    - destruct (ffin a) eqn:E; simpl.
      + rewrite IH. split; intros (x & H1 & H2); exists x; intuition; congruence.
      + split; eauto. }
  rewrite <- X. split.
  - intros [h' H]. destruct (Nat.eq_dec (length v) (get_n_dofs h s)) as [E|E]; auto. right.
    destruct (all_finite v) eqn:Ef; auto. destruct (set_data_ok s v h E Ef) as [h2 Y]. congruence.
  - intros [H|H].
    + exists h. now apply set_data_wrong_length.
    + destruct (Nat.eq_dec (length v) (get_n_dofs h s)) as [E|E]; [now apply set_data_nonfinite|].
      exists h. now apply set_data_wrong_length.
Qed.
Lemma C09_set_get h s v h' : valid h s -> set_data s v h = (h', Val tt) -> get_data h' s = v.
Proof. intros V H. eapply set_get; eauto; [apply V | now apply valid_live]. Qed.
Lemma C09_get_set h s : valid h s -> finite_data h s -> set_data s (get_data h s) h = (h, Val tt).
Proof. intros V H. apply set_same. apply finite_iff; auto. now apply (valid_keys h). Qed.

(** C10 *)
Lemma C10_frame h s v : let h' := fst (set_data s v h) in
  same_structure h h' /\ (forall c, prim_grad h' c = prim_grad h c) /\
  (forall c, ~ In c (map snd (s_prims s)) -> prim_data h' c = prim_data h c).
Proof.
  intros h'. destruct (set_data_frame s v h) as [[H1 H2] H3]. split; [exact H1|]. split.
  - intros c. now apply H2.
  - intros c Hc. now apply H3.
Qed.
Lemma C10_seen h s v h' id l : valid h s -> set_data s v h = (h', Val tt) ->
  get_primitive_by_id s id = Some (PPoint l) ->
  nth_error v (position s id) = Some (p_x (getP h' l)) /\
  nth_error v (position s id + 1) = Some (p_y (getP h' l)).
Proof.
  intros V H G. rewrite <- (C09_set_get _ _ _ _ V H).
  pose proof (offset_get (s_prims s) (v_keys _ _ V) id (PPoint l) h' G) as O.
  rewrite position_offset. split.
  - rewrite <- (Nat.add_0_r (offset_in _ _)). apply (O 0). simpl; lia.
  - apply (O 1). simpl; lia.
Qed.

Lemma C10_shared h s v h' id l : valid h s -> set_data s v h = (h', Val tt) ->
  get_primitive_by_id s id = Some (PPoint l) ->
  exists x y, nth_error v (position s id) = Some x /\ nth_error v (position s id + 1) = Some y /\
    pdata h' l = (x, y) /\
    (forall ln, l_start (getL h ln) = l -> line_start h' ln = (x, y)) /\
    (forall ln, l_end (getL h ln) = l -> line_end h' ln = (x, y)) /\
    (forall a, a_center (getA h a) = l -> pdata h' (a_center (getA h' a)) = (x, y)) /\
    (forall c, c_center (getC h c) = l -> pdata h' (c_center (getC h' c)) = (x, y)).
Proof.
  intros V H G. destruct (C10_seen _ _ _ _ _ _ V H G) as [E1 E2].
  destruct (C10_frame h s v) as [St _]. rewrite H in St; simpl in St.
  exists (p_x (getP h' l)), (p_y (getP h' l)). repeat split; auto; unfold line_start, line_end.
  - intros ln <-. now rewrite (struct_getL _ _ ln St).
  - intros ln <-. now rewrite (struct_getL _ _ ln St).
  - intros a <-. destruct St as (_&_&_&_&_&S1&_). destruct (S1 a) as [-> _]. reflexivity.
  - intros a <-. destruct St as (_&_&_&_&_&_&S1). rewrite S1. reflexivity.
Qed.
Lemma clone_eq s : sketch_clone s = s.
Proof.
  destruct s as [p n k]. unfold sketch_clone; simpl. f_equal; [|apply map_id].
  induction p as [|[a b] p IH]; simpl; congruence.
Qed.
Lemma C11_shares h s v h' : valid h s -> set_data (sketch_clone s) v h = (h', Val tt) ->
  get_data h' s = v /\ get_data h (sketch_clone s) = get_data h s.
Proof. intros V H. rewrite clone_eq in *. split; auto. eapply C09_set_get; eauto. Qed.
Lemma C08_count h s :
  get_n_dofs h s = 2 * how_many is_point s + 3 * how_many is_arc s + how_many is_circle s /\
  length (get_data h s) = get_n_dofs h s.
Proof. split; [apply C08_dofs | apply get_data_length]. Qed.
Lemma C05_once os rs st : run pinv init os rs st -> few (length os) ->
  NoDup (s_cons (snd st)) /\ get_num_constraints (snd st) = length (s_cons (snd st)) /\
  get_num_primitives (snd st) = length (s_prims (snd st)).
Proof. intros H Hn. split; [eapply reachable_valid; eauto | split; reflexivity]. Qed.
Lemma C02_points_all h s : valid h s ->
  (forall id p, In (id, p) (get_all_points h s) <->
                exists l, get_primitive_by_id s id = Some (PPoint l) /\ p = getP h l) /\
  StronglySorted N.lt (map fst (get_all_points h s)).
Proof. intros V; split; [intros; now apply C02_points | apply all_points_sorted, V]. Qed.
Lemma C01_stable os1 rs1 st1 os2 rs2 st2 id c :
  run pinv init os1 rs1 st1 -> run pinv st1 os2 rs2 st2 -> few (length (os1 ++ os2)) ->
  get_primitive_by_id (snd st1) id = Some c -> ~ In (DeletePrimitive id) os2 ->
  get_primitive_by_id (snd st2) id = Some c.
Proof.
  intros H1 H2 Hn G Hd. apply few_lt in Hn. rewrite app_length, Nat2N.inj_add in Hn.
  destruct (run_init_book _ _ _ _ H1 ltac:(lia)) as [B1 L1].
  eapply (run_get_stable pinv); eauto. lia.
Qed.
Lemma C03_succeeds h s c :
  (exists s' id, add_primitive h s c = (s', ROk id)) <->
  (forall r, In r (prim_refs h c) -> In r (map snd (s_prims s))) /\ ~ In c (map snd (s_prims s)).
Proof.
  unfold add_primitive. destruct (forallb (has_prim s) (prim_refs h c)) eqn:E1; simpl.
  - rewrite forallb_forall in E1. destruct (has_prim s c) eqn:E2.
    + split; [intros (? & ? & X); discriminate|]. intros [_ H]. exfalso; apply H. now apply has_prim_In.
    + split; [intros _|eauto]. split; [intros r Hr; apply has_prim_In; auto | now apply has_prim_nIn].
  - split; [intros (? & ? & X); discriminate|]. intros [H _]. exfalso.
    assert (forallb (has_prim s) (prim_refs h c) = true); [|congruence].
    apply forallb_forall. intros r Hr. apply has_prim_In. auto.
Qed.
Lemma C05_order st os rs st' : run pinv st os rs st' -> (forall k, ~ In (DeleteConstraint k) os) ->
  s_cons (snd st') = s_cons (snd st) ++ added_constraints os rs.
Proof.
  induction 1 as [st|st o st1 r os rs st' Hok Hs Hr IH]; intros Hd; [simpl; now rewrite app_nil_r|].
  rewrite IH by (intros k Hk; apply (Hd k); now right).
  assert (X : s_cons (snd st1) = s_cons (snd st) ++
     match o, r with AddConstraint k, RetOk => [k] | Constrain _, RetLoc k => [k] | _, _ => [] end).
  { clear IH Hr. destruct st as [h s]. 
    destruct o; cbn [step] in Hs;
      try (injection Hs as <- <-; simpl; now rewrite app_nil_r);
      try (apply on_heap_same in Hs as (E & _ & _); rewrite E; now rewrite app_nil_r).
    - destruct (con_new_ok c); injection Hs as <- <-; simpl; now rewrite app_nil_r.
    - unfold add_primitive in Hs. destruct (negb _); [|destruct (has_prim s c)]; injection Hs as <- <-; simpl; now rewrite app_nil_r.
    - unfold add_point2, add_primitive in Hs. simpl in Hs. destruct (has_prim s _); injection Hs as <- <-; simpl; now rewrite app_nil_r.
    - unfold add_line, add_primitive in Hs. cbn [allocL] in Hs. destruct (negb _); [|destruct (has_prim s _)]; injection Hs as <- <-; simpl; now rewrite app_nil_r.
    - unfold add_arc, add_primitive in Hs. cbn [allocA] in Hs. destruct (negb _); [|destruct (has_prim s _)]; injection Hs as <- <-; simpl; now rewrite app_nil_r.
    - unfold add_constraint in Hs. destruct (negb _); [|destruct (has_con s k)]; injection Hs as <- <-; simpl; rewrite ?app_nil_r; auto.
    - unfold constrain in Hs. destruct (con_new_ok c); cbn [negb allocK] in Hs.
      + unfold add_constraint in Hs. destruct (negb _); [|destruct (has_con s _)]; injection Hs as <- <-; simpl; rewrite ?app_nil_r; auto.
      + injection Hs as <- <-; simpl; now rewrite app_nil_r.
    - unfold delete_primitive in Hs. destruct (bt_get _ _); injection Hs as <- <-; simpl; now rewrite app_nil_r.
    - exfalso. apply (Hd k). now left.
    - destruct (same_kind _ _); injection Hs as <- <-; simpl; now rewrite app_nil_r. }
  rewrite X, <- app_assoc. f_equal. destruct o, r; reflexivity.
Qed.
End L.
