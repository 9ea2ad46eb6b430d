(** * Proofs for C55 - C61 *)
From Coq Require Import List ZArith NArith Arith Bool Lia Sorted.
From Verif Require Import Arith Vec Prim Cons Sketch Solve Decomp Api Spec CellSpec SolverSpec SerdeSpec
  HeapLemmas SolveLemmas BookLemmas WfLemmas DataLemmas SpecLemmas GradLemmas SolverForms.
Import ListNotations.

Section L.
Context {F : Type} {A : Arith F}.
Implicit Types h : heap F.

(** ** Writing one cell *)
Lemma ok_set h h' : length (h_pts h') = length (h_pts h) -> length (h_lines h') = length (h_lines h) ->
  length (h_arcs h') = length (h_arcs h) -> length (h_circs h') = length (h_circs h) ->
  forall c, cell_ok h' c <-> cell_ok h c.
Proof. intros E1 E2 E3 E4 [l|l|l|l]; simpl; rewrite ?E1, ?E2, ?E3, ?E4; reflexivity. Qed.
Ltac other := let c := fresh "c" in let H := fresh in intros c H; destruct c as [?l|?l|?l|?l]; unfold view; simpl; try reflexivity.

Lemma put_point h l p : cell_ok h (PPoint l) ->
  becomes h (setP h l p) (PPoint l) ([p_x p; p_y p], [p_gx p; p_gy p], [], None).
Proof.
  intros H. simpl in H. apply Nat.ltb_lt in H. split; [|split; [|split; [|reflexivity]]].
  - unfold view; simpl. rewrite getP_setP, Nat.eqb_refl, H. reflexivity.
  - other. rewrite getP_setP. destruct (Nat.eqb_spec l l0) as [->|]; [congruence|]. reflexivity.
  - apply ok_set; simpl; auto using lset_length.
Qed.
Lemma put_line h l x : cell_ok h (PLine l) ->
  becomes h (setL h l x) (PLine l) ([], [], [PPoint (l_start x); PPoint (l_end x)], None).
Proof.
  intros H. simpl in H. apply Nat.ltb_lt in H. split; [|split; [|split; [|reflexivity]]].
  - unfold view; simpl. rewrite getL_setL, Nat.eqb_refl, H. reflexivity.
  - other. rewrite getL_setL. destruct (Nat.eqb_spec l l0) as [->|]; [congruence|]. reflexivity.
  - apply ok_set; simpl; auto using lset_length.
Qed.
Lemma put_arc h l a : cell_ok h (PArc l) ->
  becomes h (setA h l a) (PArc l) ([a_radius a; a_sa a; a_ea a], [a_gr a; a_gsa a; a_gea a], [PPoint (a_center a)], Some (a_cw a)).
Proof.
  intros H. simpl in H. apply Nat.ltb_lt in H. split; [|split; [|split; [|reflexivity]]].
  - unfold view; simpl. rewrite getA_setA, Nat.eqb_refl, H. reflexivity.
  - other. rewrite getA_setA. destruct (Nat.eqb_spec l l0) as [->|]; [congruence|]. reflexivity.
  - apply ok_set; simpl; auto using lset_length.
Qed.
Lemma put_circle h l x : cell_ok h (PCircle l) ->
  becomes h (setC h l x) (PCircle l) ([c_radius x], [c_gr x], [PPoint (c_center x)], None).
Proof.
  intros H. simpl in H. apply Nat.ltb_lt in H. split; [|split; [|split; [|reflexivity]]].
  - unfold view; simpl. rewrite getC_setC, Nat.eqb_refl, H. reflexivity.
  - other. rewrite getC_setC. destruct (Nat.eqb_spec l l0) as [->|]; [congruence|]. reflexivity.
  - apply ok_set; simpl; auto using lset_length.
Qed.

(** ** Setters *)
Lemma point_setters h l x0 y0 g v : cell_ok h (PPoint l) -> view h (PPoint l) = ([x0; y0], g, [], None) ->
  (ffin v = true -> exists h', Point2_set_x l v h = (h', Val tt) /\ becomes h h' (PPoint l) ([v; y0], g, [], None)) /\
  (ffin v = true -> exists h', Point2_set_y l v h = (h', Val tt) /\ becomes h h' (PPoint l) ([x0; v], g, [], None)) /\
  (ffin v = false -> Point2_set_x l v h = (h, Panic) /\ Point2_set_y l v h = (h, Panic)).
Proof.
  intros H V. unfold view in V. injection V as <- <- <-. unfold Point2_set_x, Point2_set_y, mbind, massert.
  split; [|split]; intros ->; simpl; [eexists; split; [reflexivity|] | eexists; split; [reflexivity|] | split; reflexivity];
  exact (put_point _ _ _ H).
Qed.
Lemma line_setters h l a b p : cell_ok h (PLine l) -> view h (PLine l) = ([], [], [PPoint a; PPoint b], None) ->
  becomes h (Line_set_start l p h) (PLine l) ([], [], [PPoint p; PPoint b], None) /\
  becomes h (Line_set_end l p h) (PLine l) ([], [], [PPoint a; PPoint p], None).
Proof. intros H V. unfold view in V. injection V as <- <-. split; exact (put_line _ _ _ H). Qed.
Lemma arc_setters h l r sa ea g c cw : cell_ok h (PArc l) -> view h (PArc l) = ([r; sa; ea], g, [PPoint c], Some cw) ->
  (forall p, becomes h (Arc_set_center l p h) (PArc l) ([r; sa; ea], g, [PPoint p], Some cw)) /\
  (forall x, becomes h (Arc_set_radius l x h) (PArc l) ([x; sa; ea], g, [PPoint c], Some cw)) /\
  (forall x, becomes h (Arc_set_start_angle l x h) (PArc l) ([r; x; ea], g, [PPoint c], Some cw)) /\
  (forall x, becomes h (Arc_set_end_angle l x h) (PArc l) ([r; sa; x], g, [PPoint c], Some cw)) /\
  (forall b, becomes h (Arc_set_clockwise l b h) (PArc l) ([r; sa; ea], g, [PPoint c], Some b)).
Proof. intros H V. unfold view in V. injection V as <- <- <- <- <- <-. repeat (split; [intros x; exact (put_arc _ _ _ H)|]). intros x; exact (put_arc _ _ _ H). Qed.
Lemma circle_setters h l r g c : cell_ok h (PCircle l) -> view h (PCircle l) = ([r], g, [PPoint c], None) ->
  (forall p, becomes h (Circle_set_center l p h) (PCircle l) ([r], g, [PPoint p], None)) /\
  (forall x, becomes h (Circle_set_radius l x h) (PCircle l) ([x], g, [PPoint c], None)).
Proof. intros H V. unfold view in V. injection V as <- <- <-. split; intros x; exact (put_circle _ _ _ H). Qed.

(** ** add_to_gradient *)
Lemma point_add h l d a b x y : cell_ok h (PPoint l) -> view h (PPoint l) = (d, [a; b], [], None) ->
  (all_finite [x; y] = true -> exists h', Point2_add_to_gradient l [x; y] h = (h', Val tt) /\
     becomes h h' (PPoint l) (d, [a +f x; b +f y], [], None)) /\
  (all_finite [x; y] = false -> Point2_add_to_gradient l [x; y] h = (h, Panic)).
Proof.
  intros H V. unfold view in V. injection V as <- <- <-. unfold Point2_add_to_gradient, mbind, massert.
  split; intros ->; [|reflexivity]. simpl. eexists. split; [reflexivity|]. exact (put_point _ _ _ H).
Qed.
Lemma view_split h c d g r o : view h c = (d, g, r, o) -> prim_data h c = d /\ prim_grad h c = g.
Proof. unfold view. intros E. injection E. auto. Qed.
Lemma fin_cons x (l : vec F) : all_finite (x :: l) = ffin x && all_finite l.
Proof. reflexivity. Qed.
Ltac fins H := repeat rewrite fin_cons in H; repeat rewrite andb_true_iff in H;
  repeat match goal with K : _ /\ _ |- _ => destruct K end; rewrite ?fin_cons; repeat match goal with K : ffin _ = true |- _ => rewrite K; clear K end; simpl.

Lemma gadd_one h l x y : cell_ok h (PPoint l) -> all_finite [x; y] = true -> exists h', Point2_add_to_gradient l [x; y] h = (h', Val tt) /\ gadd h h' l x y.
Proof.
  intros H Hf. destruct (proj1 (point_add h l _ _ _ x y H eq_refl) Hf) as (h' & E & B). exists h'. split; [exact E|].
  eexists. eexists. eexists. split; [reflexivity | exact B].
Qed.
Lemma line_add h l a b x y z w : heap_ok h -> cell_ok h (PLine l) -> prim_refs h (PLine l) = [PPoint a; PPoint b] ->
  (all_finite [x; y; z; w] = true -> exists h1 h', Line_add_to_gradient l [x; y; z; w] h = (h', Val tt) /\
     gadd h h1 a x y /\ gadd h1 h' b z w) /\
  (all_finite [x; y; z; w] = false -> Line_add_to_gradient l [x; y; z; w] h = (h, Panic)).
Proof.
  intros O H E. pose proof (proj1 O l H) as K. rewrite E in K. apply List.Forall_cons_iff in K as [Ka K]. apply List.Forall_cons_iff in K as [Kb _].
  simpl in E. injection E as <- <-. unfold Line_add_to_gradient, mbind at 1, massert. split; intros Hf; rewrite Hf; [|reflexivity].
  assert (F1 : all_finite [x; y] = true) by (fins Hf; reflexivity).
  assert (F2 : all_finite [z; w] = true) by (fins Hf; reflexivity).
  destruct (gadd_one h _ x y Ka F1) as (h1 & E1 & G1).
  assert (Kb' : cell_ok h1 (PPoint (l_end (getL h l)))). { destruct G1 as (d & p & q & _ & _ & _ & B & _). apply B. exact Kb. }
  destruct (gadd_one h1 _ z w Kb' F2) as (h2 & E2 & G2).
  exists h1, h2. split; [|auto]. cbn [firstn skipn mret]. unfold mbind. rewrite E1. exact E2.
Qed.
Lemma arc_add h l d u v w c o x y r s e : heap_ok h -> cell_ok h (PArc l) -> view h (PArc l) = (d, [u; v; w], [PPoint c], o) ->
  (all_finite [x; y; r; s; e] = true -> exists h1 h', Arc_add_to_gradient l [x; y; r; s; e] h = (h', Val tt) /\
     gadd h h1 c x y /\ becomes h1 h' (PArc l) (d, [u +f r; v +f s; w +f e], [PPoint c], o)) /\
  (all_finite [x; y; r; s; e] = false -> Arc_add_to_gradient l [x; y; r; s; e] h = (h, Panic)).
Proof.
  intros O H V. pose proof (proj1 (proj2 O) l H) as K. assert (Ec : c = a_center (getA h l)) by (unfold view in V; simpl in V; congruence).
  apply List.Forall_cons_iff in K as [Ka _].
  unfold Arc_add_to_gradient, mbind at 1, massert. split; intros Hf; rewrite Hf; [|reflexivity].
  assert (F1 : all_finite [x; y] = true) by (fins Hf; reflexivity).
  destruct (gadd_one h _ x y Ka F1) as (h1 & E1 & G1).
  pose proof G1 as (d1 & p & q & _ & B1 & B2 & B3 & B4).
  assert (V1 : view h1 (PArc l) = view h (PArc l)) by (apply B2; discriminate).
  exists h1. eexists. split; [cbn [firstn mret]; unfold mbind; rewrite E1; reflexivity|]. split; [rewrite Ec; exact G1|].
  rewrite V in V1. clear V. unfold view in V1. simpl in V1. injection V1 as E2 E3 E4 E5 E6 E7. rewrite <- E2, <- E3, <- E4, <- E5, <- E6, <- E7.
  match goal with |- becomes _ (setA _ _ ?a) _ _ => apply (put_arc h1 l a) end. apply B3. exact H.
Qed.
Lemma circle_add h l d u c x y r : heap_ok h -> cell_ok h (PCircle l) -> view h (PCircle l) = (d, [u], [PPoint c], None) ->
  (all_finite [x; y; r] = true -> exists h1 h', Circle_add_to_gradient l [x; y; r] h = (h', Val tt) /\
     gadd h h1 c x y /\ becomes h1 h' (PCircle l) (d, [u +f r], [PPoint c], None)) /\
  (all_finite [x; y; r] = false -> Circle_add_to_gradient l [x; y; r] h = (h, Panic)).
Proof.
  intros O H V. pose proof (proj1 (proj2 (proj2 O)) l H) as K. assert (Ec : c = c_center (getC h l)) by (unfold view in V; simpl in V; congruence).
  apply List.Forall_cons_iff in K as [Ka _].
  unfold Circle_add_to_gradient, mbind at 1, massert. split; intros Hf; rewrite Hf; [|reflexivity].
  assert (F1 : all_finite [x; y] = true) by (fins Hf; reflexivity).
  destruct (gadd_one h _ x y Ka F1) as (h1 & E1 & G1).
  pose proof G1 as (d1 & p & q & _ & B1 & B2 & B3 & B4).
  assert (V1 : view h1 (PCircle l) = view h (PCircle l)) by (apply B2; discriminate).
  exists h1. eexists. split; [cbn [firstn mret]; unfold mbind; rewrite E1; reflexivity|]. split; [rewrite Ec; exact G1|].
  rewrite V in V1. clear V. unfold view in V1. simpl in V1. injection V1 as E2 E3 E4. rewrite <- E2, <- E3, <- E4.
  match goal with |- becomes _ (setC _ _ ?a) _ _ => apply (put_circle h1 l a) end. apply B3. exact H.
Qed.

(** ** set_desired_angle / distance / pos *)
Lemma set_params h s k x y : k < length (h_cons h) ->
  let st := step (fun _ _ => PErr) (h, s) (ConSetParams k x y) in
  let h' := fst (fst st) in let c := getK h k in let c' := getK h' k in
  snd st = RetOk /\ snd (fst st) = s /\
  same_kind c c' = true /\ con_refs c' = con_refs c /\
  con_params c' = match length (con_params c) with 1 => [x] | 2 => [x; y] | _ => [] end /\
  (forall j, j <> k -> getK h' j = getK h j) /\ length (h_cons h') = length (h_cons h) /\
  (forall p, view h' p = view h p) /\ (forall p, cell_ok h' p <-> cell_ok h p).
Proof.
  intros Hk. simpl. assert (E : getK (setK h k (con_with_params (getK h k) x y)) k = con_with_params (getK h k) x y).
  { rewrite getK_setK, Nat.eqb_refl. apply Nat.ltb_lt in Hk. now rewrite Hk. }
  rewrite E. split; [reflexivity|]. split; [reflexivity|].
  split; [destruct (getK h k); reflexivity|]. split; [destruct (getK h k); reflexivity|].
  split; [destruct (getK h k); reflexivity|]. split.
  - intros j Hj. rewrite getK_setK. destruct (Nat.eqb_spec k j); [congruence|reflexivity].
  - split; [apply lset_length|]. split; [intros [l|l|l|l]; reflexivity|]. intros [l|l|l|l]; reflexivity.
Qed.

(** ** The constrain_* helpers *)
Lemma constrain_form h s c : con_new_ok c = true ->
  (forall r, In r (con_refs c) -> exists p, In p (s_prims s) /\ snd p = r) ->
  ~ In (length (h_cons h)) (s_cons s) ->
  exists h' s', constrain h s c = (h', s', Val (ROk (length (h_cons h)))) /\
    getK h' (length (h_cons h)) = c /\ s_cons s' = s_cons s ++ [length (h_cons h)] /\ s_prims s' = s_prims s /\ s_next s' = s_next s /\
    (forall k, k < length (h_cons h) -> getK h' k = getK h k) /\ length (h_cons h') = S (length (h_cons h)) /\
    (forall p, view h' p = view h p) /\ (forall p, cell_ok h' p <-> cell_ok h p).
Proof.
  intros Hc Hr Hn. unfold constrain. rewrite Hc. simpl.
  assert (E : getK (mkHeap (h_pts h) (h_lines h) (h_arcs h) (h_circs h) (h_cons h ++ [c])) (length (h_cons h)) = c).
  { unfold getK. simpl. rewrite app_nth2, Nat.sub_diag; auto. }
  unfold add_constraint. rewrite E.
  assert (E1 : forallb (has_prim s) (con_refs c) = true).
  { apply forallb_forall. intros r H. apply existsb_exists. destruct (Hr r H) as (p & Hp & <-). exists p. split; [exact Hp|]. apply pcell_eqb_refl. }
  rewrite E1. assert (E2 : has_con s (length (h_cons h)) = false).
  { apply not_true_is_false. intros H. apply existsb_exists in H as (x & H1 & H2). apply Nat.eqb_eq in H2. now subst x. }
  rewrite E2. simpl. eexists. eexists. split; [reflexivity|]. split; [exact E|]. repeat (split; [reflexivity|]). split.
  - intros k Hk. unfold getK. simpl. now rewrite app_nth1.
  - split; [simpl; rewrite app_length; simpl; lia|]. split; intros [l|l|l|l]; reflexivity.
Qed.

Lemma constrain_adds h s c : valid h s -> con_new_ok c = true -> (forall r, In r (con_refs c) -> registered s r) ->
  adds_constraint h s c (constrain h s c).
Proof.
  intros V Hc Hr. destruct (constrain_form h s c Hc) as (h' & s' & H).
  - intros r H. apply Hr, (valid_reg _ _ _ V) in H. apply in_map_iff in H as (p & E & H). exists p. auto.
  - intros H. apply (v_live_cons _ _ V) in H. lia.
  - exists h', s', (length (h_cons h)). destruct H as (H1 & H2 & H3). split; [exact H1|]. split; [reflexivity|]. split; [exact H2|]. exact H3.
Qed.
Lemma constrain_refuses h s c r : con_new_ok c = true -> In r (con_refs c) -> ~ registered s r -> valid h s ->
  refuses s (constrain h s c).
Proof.
  intros Hc Hr Hn Hk. unfold constrain. rewrite Hc. simpl. unfold add_constraint.
  assert (E : getK (mkHeap (h_pts h) (h_lines h) (h_arcs h) (h_circs h) (h_cons h ++ [c])) (length (h_cons h)) = c).
  { unfold getK. simpl. rewrite app_nth2, Nat.sub_diag; auto. }
  rewrite E. assert (E1 : forallb (has_prim s) (con_refs c) = false).
  { apply not_true_is_false. intros H. rewrite forallb_forall in H. specialize (H r Hr). apply existsb_exists in H as ([id p] & H1 & H2).
    apply pcell_eqb_eq in H2. simpl in H2. subst p. apply Hn, (valid_reg _ _ _ Hk). apply in_map_iff. exists (id, r). auto. }
  rewrite E1. simpl. eexists. eexists. reflexivity.
Qed.

(** ** Equality and joining of segments and rings *)
Lemma feq2 (a b : F * F) : v2eq a b = true <-> feq (fst a) (fst b) = true /\ feq (snd a) (snd b) = true.
Proof. unfold v2eq. apply andb_true_iff. Qed.
Lemma connects_iff h g p : connects h g p = true <-> continues h g p = true \/ continues h (seg_reverse g) p = true.
Proof.
  unfold connects, continues. rewrite orb_true_iff.
  replace (get_start h (seg_reverse g)) with (get_end h g) by (destruct g; reflexivity). reflexivity.
Qed.
Lemma same_cons (a b : F) u v : same_numbers (a :: u) (b :: v) <-> feq a b = true /\ same_numbers u v.
Proof. split; [intros H; inversion H; auto | intros [H1 H2]; constructor; auto]. Qed.
Lemma same_nil : same_numbers (@nil F) [] <-> True.
Proof. split; auto. intros _. constructor. Qed.
Lemma seg_eq_iff h g g' : seg_eq h g g' = true <-> same_seg h g g'.
Proof.
  unfold same_seg. destruct g as [l|a], g' as [m|b]; simpl; unfold line_eq, arc_eq, point_eq, point_numbers; simpl;
  try (split; [discriminate | intros [H _]; discriminate]).
  - rewrite ?andb_true_iff, ?same_cons, same_nil. tauto.
  - rewrite ?andb_true_iff, ?same_cons, same_nil, Bool.eqb_true_iff.
    split; [intros H; split; [f_equal|]; tauto | intros [H1 H2]; injection H1 as H1; tauto].
Qed.
Lemma ring_eq_iff h r r' : ring_eq h r r' = true <-> same_ring h r r'.
Proof.
  destruct r as [c|l], r' as [c'|l']; simpl; try (split; [discriminate | tauto]).
  - unfold circle_eq, point_eq, point_numbers. simpl. rewrite ?andb_true_iff, ?same_cons, same_nil. tauto.
  - revert l'. induction l as [|g l IH]; intros [|g' l']; simpl.
    + split; intros _; [constructor | reflexivity].
    + split; [discriminate | intros H; inversion H].
    + split; [discriminate | intros H; inversion H].
    + rewrite andb_true_iff, andb_true_iff, seg_eq_iff. specialize (IH l'). rewrite andb_true_iff in IH.
      split; [intros (H1 & H2 & H3); constructor; tauto | intros H; inversion H; subst; tauto].
Qed.
(** == is an equivalence on rings of numbers when it is one on numbers *)
Lemma ring_eq_sym h r r' : (forall a b : F, feq a b = true -> feq b a = true) -> ring_eq h r r' = true -> ring_eq h r' r = true.
Proof.
  intros S. rewrite !ring_eq_iff.
  assert (N : forall u v : list F, same_numbers u v -> same_numbers v u) by (intros u v H; induction H; constructor; auto).
  destruct r as [c|l], r' as [c'|l']; simpl; auto.
  intros H. induction H as [|g g' l l' [H1 H2]]; constructor; auto. split; auto.
Qed.
Lemma ring_eq_trans h r r' r'' : (forall a b c : F, feq a b = true -> feq b c = true -> feq a c = true) ->
  ring_eq h r r' = true -> ring_eq h r' r'' = true -> ring_eq h r r'' = true.
Proof.
  intros S. rewrite !ring_eq_iff.
  assert (N : forall u v w : list F, same_numbers u v -> same_numbers v w -> same_numbers u w).
  { unfold same_numbers. intros u v w H. revert w. induction H; intros w K; inversion K; subst; constructor; eauto. }
  destruct r as [c|l], r' as [c'|l'], r'' as [c''|l'']; simpl; try tauto; [apply N|].
  intros H. revert l''. induction H as [|g g' l l' [H1 H2]]; intros l'' K; inversion K as [|? g'' ? ? [K1 K2]]; subst; constructor.
  - split; [congruence | eapply N; eauto].
  - apply IHForall2. assumption.
Qed.

(** ** check_gradients *)
Lemma lset_nth_back {T} (l : list T) i x d : i < length l -> lset (lset l i x) i (nth i l d) = l.
Proof. revert i. induction l as [|a l IH]; intros [|i] H; simpl in *; try lia; auto. f_equal. apply IH. lia. Qed.
Lemma lset_lset {T} (l : list T) i x y : lset (lset l i x) i y = lset l i y.
Proof. revert i. induction l as [|a l IH]; intros [|i]; simpl; auto. f_equal. apply IH. Qed.
(** writing other data into a primitive and its own back changes nothing *)
Lemma set_back c d h h1 : prim_set_data c d h = (h1, Val tt) -> all_finite (prim_data h c) = true ->
  prim_set_data c (prim_data h c) h1 = (h, Val tt).
Proof.
  intros H Hf. destruct c as [l|l|l|l]; cbn [prim_set_data prim_data] in *.
  - unfold Point2_set_data, mbind, massert in *. destruct (all_finite d && _); [|discriminate]. injection H as <-.
    rewrite Hf. simpl. f_equal. rewrite getP_setP, Nat.eqb_refl. unfold setP. simpl. rewrite lset_lset.
    destruct (Nat.ltb_spec l (length (h_pts h))) as [Hl|Hl]; simpl.
    + replace (mkPoint (p_x (getP h l)) (p_y (getP h l)) (p_gx (getP h l)) (p_gy (getP h l))) with (getP h l) by (destruct (getP h l); reflexivity).
      unfold getP. rewrite lset_same. destruct h; reflexivity.
    + rewrite lset_oob by exact Hl. destruct h; reflexivity.
  - unfold mret in *. congruence.
  - unfold Arc_set_data, mbind, massert in *. destruct (all_finite d && _); [|discriminate]. injection H as <-.
    rewrite Hf. simpl. f_equal. rewrite getA_setA, Nat.eqb_refl. unfold setA. simpl. rewrite lset_lset.
    destruct (Nat.ltb_spec l (length (h_arcs h))) as [Hl|Hl]; simpl.
    + replace (mkArc (a_center (getA h l)) (a_radius (getA h l)) (a_sa (getA h l)) (a_ea (getA h l)) (a_gr (getA h l)) (a_gsa (getA h l)) (a_gea (getA h l)) (a_cw (getA h l))) with (getA h l) by (destruct (getA h l); reflexivity).
      unfold getA. rewrite lset_same. destruct h; reflexivity.
    + rewrite lset_oob by exact Hl. destruct h; reflexivity.
  - unfold Circle_set_data, mbind, massert in *. destruct (all_finite d && _); [|discriminate]. injection H as <-.
    rewrite Hf. simpl. f_equal. rewrite getC_setC, Nat.eqb_refl. unfold setC. simpl. rewrite lset_lset.
    destruct (Nat.ltb_spec l (length (h_circs h))) as [Hl|Hl]; simpl.
    + replace (mkCircle (c_center (getC h l)) (c_radius (getC h l)) (c_gr (getC h l))) with (getC h l) by (destruct (getC h l); reflexivity).
      unfold getC. rewrite lset_same. destruct h; reflexivity.
    + rewrite lset_oob by exact Hl. destruct h; reflexivity.
Qed.
(** a rejected write changes nothing *)
Lemma set_rejected c d h h1 : prim_set_data c d h = (h1, Panic) -> h1 = h.
Proof.
  destruct c; simpl; unfold Point2_set_data, Arc_set_data, Circle_set_data, mbind, massert, mret, mpanic;
  try (destruct (all_finite d && _)); congruence.
Qed.

Lemma all_fin_lset (l : vec F) i x : i < length l -> all_finite l = true -> all_finite (lset l i x) = ffin x.
Proof.
  revert i. induction l as [|a l IH]; intros [|i] H Hf; simpl in *; try lia.
  - apply andb_true_iff in Hf as [_ Hf]. now rewrite Hf, andb_true_r.
  - apply andb_true_iff in Hf as [Ha Hf]. rewrite Ha. simpl. apply IH; [lia|exact Hf].
Qed.
Lemma coords_spec c eps k h : cell_ok h c -> all_finite (prim_data h c) = true ->
  forall is, Forall (fun i => i < length (prim_data h c)) is -> forall h' o,
  check_coords c (prim_data h c) eps (loss_value h (getK h k)) k is h = (h', o) ->
  h' = h /\
  match o with
  | Val num => length num = length is /\ forall j i, nth_error is j = Some i ->
      ffin (nth i (prim_data h c) f0 +f eps) = true /\
      exists hx, one_moved h c i (nth i (prim_data h c) f0 +f eps) hx /\
        nth_error num j = Some ((loss_value hx (getK h k) -f loss_value h (getK h k)) /f eps)
  | Panic => exists i, In i is /\ ffin (nth i (prim_data h c) f0 +f eps) = false
  end.
Proof.
  intros Hc Hf is. induction is as [|i is IH]; intros Hi h' o E.
  - simpl in E. injection E as <- <-. split; auto. split; auto. intros [|j] i H; discriminate.
  - inversion Hi as [|? ? Hi1 Hi2]; subst. cbn [check_coords] in E. unfold mbind at 1 in E.
    set (d := lset (prim_data h c) i (nth i (prim_data h c) f0 +f eps)) in *.
    assert (Ld : length d = dim c) by (unfold d; rewrite lset_length; apply prim_data_dim).
    destruct (ffin (nth i (prim_data h c) f0 +f eps)) eqn:Ef.
    + assert (Fd : all_finite d = true) by (unfold d; rewrite all_fin_lset; auto).
      destruct (prim_set_ok c d h Fd Ld) as (hx & Ex). rewrite Ex in E.
      unfold mbind at 1 in E. rewrite (set_back _ _ _ _ Ex Hf) in E. unfold mbind in E.
      destruct (check_coords c (prim_data h c) eps (loss_value h (getK h k)) k is h) as [h2 o2] eqn:E2.
      specialize (IH Hi2 _ _ eq_refl). destruct IH as [-> IH].
      assert (MV : one_moved h c i (nth i (prim_data h c) f0 +f eps) hx).
      { split; [|split].
        - pose proof (set_struct c d h) as S. rewrite Ex in S. exact S.
        - apply (prim_set_get c d h hx Ex Hc Ld).
        - intros c' Hc'. pose proof (set_data_other c d h c' Hc') as D. rewrite Ex in D. exact D. }
      assert (EK : getK hx k = getK h k). { destruct MV as ((_ & S2 & _) & _). unfold getK. now rewrite S2. }
      destruct o2 as [num|]; simpl in E; injection E as <- <-; (split; [reflexivity|]).
      * destruct IH as [IH1 IH2]. split; [simpl; lia|]. intros [|j] i' Hj; simpl in Hj.
        -- injection Hj as <-. split; [exact Ef|]. exists hx. split; [exact MV|]. simpl. now rewrite EK.
        -- exact (IH2 j i' Hj).
      * destruct IH as (i' & H1 & H2). exists i'. split; [now right|exact H2].
    + assert (Fd : all_finite d = false) by (unfold d; rewrite all_fin_lset; auto).
      destruct (prim_set_panic c d h Ld Fd) as (hx & Ex). rewrite Ex in E. injection E as <- <-.
      split; [exact (set_rejected _ _ _ _ Ex)|]. exists i. split; [now left|exact Ef].
Qed.

Lemma moved_unique h c i x h1 h2 : one_moved h c i x h1 -> one_moved h c i x h2 -> sdeq h1 h2.
Proof.
  intros (S1 & D1 & O1) (S2 & D2 & O2). split.
  - destruct S1 as (a1 & a2 & a3 & a4 & a5 & a6 & a7), S2 as (b1 & b2 & b3 & b4 & b5 & b6 & b7).
    repeat (split; [congruence|]). split; [intros l; destruct (a6 l), (b6 l); split; congruence | intros l; rewrite b7, a7; reflexivity].
  - intros d _. destruct (pcell_dec d c) as [->|N]; [congruence|]. rewrite O1, O2; auto.
Qed.
Lemma moved_sd h h1 c i x hx : sdeq h h1 -> (one_moved h1 c i x hx <-> one_moved h c i x hx).
Proof.
  intros ((b1 & b2 & b3 & b4 & b5 & b6 & b7) & D). unfold one_moved. rewrite (D c I). split; intros ((a1 & a2 & a3 & a4 & a5 & a6 & a7) & E & O).
  - split; [|split; [exact E|intros c' H; rewrite O, D by (exact H || exact I); reflexivity]].
    repeat (split; [congruence|]). split; [intros l; destruct (a6 l), (b6 l); split; congruence | intros l; rewrite a7, b7; reflexivity].
  - split; [|split; [exact E|intros c' H; rewrite O by exact H; symmetry; apply D, I]].
    repeat (split; [congruence|]). split; [intros l; destruct (a6 l), (b6 l); split; congruence | intros l; rewrite a7, b7; reflexivity].
Qed.
Lemma fd_sd h h1 c k eps i q : sdeq h h1 -> (finite_difference h1 c k eps i q <-> finite_difference h c k eps i q).
Proof.
  intros D. pose proof (moved_sd h h1 c i) as MS. assert (E1 : prim_data h1 c = prim_data h c) by (apply D; exact I).
  assert (EK : getK h1 k = getK h k) by (destruct D as ((_ & S2 & _) & _); unfold getK; now rewrite S2).
  unfold finite_difference. rewrite E1, EK, (sd_loss h h1 _ D). split; intros (x & hx & H1 & H2 & H3 & H4); exists x, hx;
    (split; [exact H1|]; split; [exact H2|]; split; [apply (MS _ _ D); exact H3 | exact H4]).
Qed.
Lemma fd_unique h c k eps i q q' : finite_difference h c k eps i q -> finite_difference h c k eps i q' -> q = q'.
Proof.
  intros (x & hx & H1 & _ & H3 & ->) (x' & hx' & H1' & _ & H3' & ->). assert (x' = x) by congruence. subst x'.
  now rewrite (sd_loss hx hx' _ (moved_unique _ _ _ _ _ _ H3 H3')).
Qed.
Definition fd_vec h c k eps num : Prop :=
  length num = length (prim_data h c) /\ forall i q, nth_error num i = Some q -> finite_difference h c k eps i q.
Lemma fd_vec_unique h c k eps u v : fd_vec h c k eps u -> fd_vec h c k eps v -> u = v.
Proof.
  intros [L1 H1] [L2 H2]. apply nth_ext with f0 f0; [congruence|]. intros i Hi.
  destruct (nth_error u i) as [q|] eqn:E1; [|apply nth_error_None in E1; lia].
  destruct (nth_error v i) as [q'|] eqn:E2; [|apply nth_error_None in E2; lia].
  rewrite (nth_error_nth _ _ _ E1), (nth_error_nth _ _ _ E2). exact (fd_unique _ _ _ _ _ _ _ (H1 _ _ E1) (H2 _ _ E2)).
Qed.
Lemma nth_seq i n : i < n -> nth_error (seq 0 n) i = Some i.
Proof. intros H. rewrite (nth_error_nth' _ 0) by now rewrite seq_length. now rewrite seq_nth. Qed.
(** one primitive *)
Lemma coords_iff c eps k h : cell_ok h c -> all_finite (prim_data h c) = true ->
  fst (check_coords c (prim_data h c) eps (loss_value h (getK h k)) k (seq 0 (length (prim_data h c))) h) = h /\
  forall num, snd (check_coords c (prim_data h c) eps (loss_value h (getK h k)) k (seq 0 (length (prim_data h c))) h) = Val num <-> fd_vec h c k eps num.
Proof.
  intros Hc Hf. destruct (check_coords c (prim_data h c) eps (loss_value h (getK h k)) k (seq 0 (length (prim_data h c))) h) as [h' o] eqn:E.
  apply coords_spec in E; auto; [|apply List.Forall_forall; intros i Hi; apply in_seq in Hi; lia].
  destruct E as [-> E]. split; [reflexivity|]. simpl. rewrite seq_length in E. destruct o as [num|].
  - assert (V : fd_vec h c k eps num).
    { destruct E as [E1 E2]. split; [exact E1|]. intros i q Hq. assert (Hi : i < length (prim_data h c)) by (rewrite <- E1; apply nth_error_Some; congruence).
      destruct (E2 i i (nth_seq _ _ Hi)) as (G1 & hx & G2 & G3). exists (nth i (prim_data h c) f0), hx.
      split; [now apply nth_error_nth'|]. split; [exact G1|]. split; [exact G2|]. congruence. }
    intros num'. split; [intros G; injection G as <-; exact V | intros G; f_equal; exact (fd_vec_unique _ _ _ _ _ _ V G)].
  - intros num. split; [discriminate|]. intros [L H]. destruct E as (i & Hi & Hn). apply in_seq in Hi. exfalso.
    destruct (nth_error num i) as [q|] eqn:Eq; [|apply nth_error_None in Eq; lia].
    destruct (H i q Eq) as (x & hx & G1 & G2 & _). rewrite (nth_error_nth _ _ f0 G1) in Hn. congruence.
Qed.
Lemma check_loop eps k ce h : forall cs, (forall c, In c cs -> cell_ok h c /\ all_finite (prim_data h c) = true) ->
  let m := mfor cs (fun c h0 =>
      mbind (massert (Nat.eqb (length (prim_data h0 c)) (length (prim_grad h0 c)))) (fun _ =>
        mbind (check_coords c (prim_data h0 c) eps (loss_value h (getK h k)) k (seq 0 (length (prim_data h0 c)))) (fun num =>
          massert (flt (vnorm (vsub num (prim_grad h0 c))) ce))) h0) h in
  fst m = h /\ (snd m = Val tt <-> forall c, In c cs -> exists num, fd_vec h c k eps num /\ flt (vnorm (vsub num (prim_grad h c))) ce = true).
Proof.
  induction cs as [|c cs IH]; intros H; cbn zeta.
  - split; [reflexivity|]. split; [intros _ c [] | reflexivity].
  - destruct (IH (fun c' Hc' => H c' (or_intror Hc'))) as [IH1 IH2]. clear IH. destruct (H c (or_introl eq_refl)) as [Hc Hf].
    destruct (coords_iff c eps k h Hc Hf) as [C1 C2].
    match goal with |- context [mfor (c :: cs) ?b] => set (f := b) in * end. cbn [mfor].
    assert (Fc : f c h = match check_coords c (prim_data h c) eps (loss_value h (getK h k)) k (seq 0 (length (prim_data h c))) h with
                         | (h', Val num) => massert (flt (vnorm (vsub num (prim_grad h' c))) ce) h'
                         | (h', Panic) => (h', Panic) end).
    { unfold f, mbind. rewrite prim_grad_length, Nat.eqb_refl. cbn [massert]. unfold mret. 
      destruct (check_coords c (prim_data h c) eps (loss_value h (getK h k)) k (seq 0 (length (prim_data h c))) h) as [h' [num|]]; cbn [fst] in C1; now rewrite ?C1. }
    destruct (check_coords c (prim_data h c) eps (loss_value h (getK h k)) k (seq 0 (length (prim_data h c))) h) as [h' [num|]] eqn:E;
      cbn [fst snd] in C1, C2; subst h'.
    + assert (V : fd_vec h c k eps num) by (apply C2; reflexivity).
      unfold mbind. rewrite Fc. destruct (flt (vnorm (vsub num (prim_grad h c))) ce) eqn:Ef; cbn [massert]; unfold mret, mpanic.
      * split; [exact IH1|]. refine (iff_trans IH2 _). split.
        -- intros G c' [<-|Hc']; [exists num; auto | apply G; exact Hc'].
        -- intros G c' Hc'. apply G. now right.
      * split; [reflexivity|]. split; [discriminate|]. intros G. destruct (G c (or_introl eq_refl)) as (num' & V' & Ef').
        rewrite (fd_vec_unique _ _ _ _ _ _ V' V) in Ef'. congruence.
    + unfold mbind. rewrite Fc. split; [reflexivity|]. split; [discriminate|]. intros G. destruct (G c (or_introl eq_refl)) as (num' & V' & _).
      apply C2 in V'. discriminate.
Qed.

Lemma check_lemma s eps k ce h : valid h s -> finite_data h s ->
  (forall c, prim_data (fst (check_gradients s eps k ce h)) c = prim_data h c) /\
  (forall h', check_gradients s eps k ce h = (h', Val tt) <->
     exists g, get_gradient s h = (h', Val g) /\ forall c, registered s c ->
       exists num, length num = length (prim_data h c) /\
         (forall i q, nth_error num i = Some q -> finite_difference h c k eps i q) /\
         flt (vnorm (vsub num (prim_grad h' c))) ce = true).
Proof.
  intros V Hf. unfold check_gradients, mbind at 1 4. pose proof (get_gradient_sd s h) as D.
  destruct (get_gradient s h) as [h1 [g|]] eqn:E; cbn [fst] in D.
  - assert (C : forall c, In c (cells s) -> cell_ok h1 c /\ all_finite (prim_data h1 c) = true).
    { intros c Hc. assert (R : registered s c) by (apply (valid_reg _ _ _ V); exact Hc). split.
      - apply (v_live _ _ V) in R. destruct D as ((S1 & _ & S3 & S4 & S5 & _) & _). destruct c; simpl in *; rewrite ?S1, ?S3, ?S4, ?S5; exact R.
      - rewrite (proj2 D c I). apply forallb_forall. intros x Hx. exact (proj1 (List.Forall_forall _ _) (Hf c R) x Hx). }
    destruct (check_loop eps k ce h1 (cells s) C) as [L1 L2]. cbn zeta in L1, L2. split.
    + intros c. rewrite L1. apply D. exact I.
    + intros h'. match goal with |- ?m = _ <-> _ => destruct m as [h2 o] eqn:Em end. cbn [fst snd] in L1, L2. subst h2. split.
      * intros G. injection G as <- ->. exists g. split; [reflexivity|]. intros c Hc.
        destruct (proj1 L2 eq_refl c (proj1 (valid_reg _ _ _ V) Hc)) as (num & [N1 N2] & N3). exists num.
        rewrite (proj2 D c I) in N1. split; [exact N1|]. split; [|exact N3]. intros i q Hq. apply (fd_sd h h1); auto.
      * intros (g' & G & Hc). injection G as <- <-. f_equal. apply L2. intros c Hin.
        destruct (Hc c (proj2 (valid_reg _ _ _ V) Hin)) as (num & N1 & N2 & N3). exists num. split; [|exact N3].
        split; [rewrite (proj2 D c I); exact N1|]. intros i q Hq. apply (fd_sd h h1); auto.
  - split; [intros c; apply D; exact I|]. intros h'. split; [discriminate|]. intros (g & G & _). discriminate.
Qed.
End L.
