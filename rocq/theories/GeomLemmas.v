(** * What the decomposition depends on *)
From Coq Require Import List ZArith NArith Arith Bool Lia Permutation.
From Verif Require Import Arith Vec Prim Cons Sketch Decomp Spec DecompSpec SpecLemmas DecompLemmas.
Import ListNotations.

Section GL.
Context {F : Type} {A : Arith F}.

(** same data and structure; only the cached gradients of points and circles may differ *)
Definition same_geometry (h h' : heap F) : Prop :=
  h_lines h' = h_lines h /\ h_arcs h' = h_arcs h /\ (forall l, pdata h' l = pdata h l) /\
  (forall l, c_center (getC h' l) = c_center (getC h l) /\ c_radius (getC h' l) = c_radius (getC h l)).
(** two points that primitives of the sketch refer to have equal coordinates only if they are the
    same cell; a point equals itself (no NaN in its data and cached gradient) *)
Definition points_apart (h : heap F) (s : sketch) : Prop :=
  forall c c' p q, registered s c -> registered s c' -> In (PPoint p) (prim_refs h c) -> In (PPoint q) (prim_refs h c') ->
    point_eq (getP h p) (getP h p) = true /\ (v2eq (pdata h p) (pdata h q) = true -> p = q).
(** what is left of a ring when the cached gradients of circles are ignored *)
Definition ring_shape (r : ring F) : ring F :=
  match r with RCircle c => RCircle (mkCircle (c_center c) (c_radius c) f0) | RSegments l => RSegments l end.

Definition seg_pts (g : seg F) : list loc := match g with SLine l => [l_start l; l_end l] | SArc a => [a_center a] end.
Section Two.
Variables (h h' : heap F) (s : sketch).
Hypothesis SG : same_geometry h h'.
Lemma fwd_same : forward h' s = forward h s.
Proof. destruct SG as (E1 & E2 & _). unfold forward, seg_of, getL, getA. now rewrite E1, E2. Qed.
Lemma dir_same : directed h' s = directed h s.
Proof. unfold directed. now rewrite fwd_same. Qed.
Lemma pd_same l : pdata h' l = pdata h l. Proof. destruct SG as (_ & _ & E & _). auto. Qed.
Lemma start_same g : get_start h' g = get_start h g.
Proof. destruct g as [l|a]; simpl; [apply pd_same|]. assert (E := pd_same (a_center a)). unfold pdata, p_data in E. injection E as E1 E2. unfold arc_start_point. now rewrite E1, E2. Qed.
Lemma end_same g : get_end h' g = get_end h g.
Proof. destruct g as [l|a]; simpl; [apply pd_same|]. assert (E := pd_same (a_center a)). unfold pdata, p_data in E. injection E as E1 E2. unfold arc_end_point. now rewrite E1, E2. Qed.
Lemma angle_same g : seg_start_angle h' g = seg_start_angle h g /\ seg_end_angle h' g = seg_end_angle h g.
Proof. destruct g as [l|a]; split; cbn [seg_start_angle seg_end_angle]; cbv zeta; rewrite ?(pd_same (l_start l)), ?(pd_same (l_end l)); reflexivity. Qed.
Definition agree (D : list (seg F)) := forall g g' p q, In g D -> In g' D -> In p (seg_pts g) -> In q (seg_pts g') ->
  point_eq (getP h' p) (getP h' q) = point_eq (getP h p) (getP h q).
Lemma seg_pts_rev g p : In p (seg_pts (seg_reverse g)) <-> In p (seg_pts g).
Proof. destruct g; simpl; tauto. Qed.
Lemma seq_same D g g' : agree D -> In g D -> In g' D -> seg_eq h' g g' = seg_eq h g g' /\ seg_eq h' g (seg_reverse g') = seg_eq h g (seg_reverse g').
Proof.
  intros Ag Hg Hg'. assert (X := fun p q => Ag g g' p q Hg Hg'). destruct g as [l|a], g' as [m|b]; simpl in *; auto.
  - unfold line_eq. simpl. rewrite !X; auto.
  - unfold arc_eq. simpl. rewrite !X; auto.
Qed.
Lemma eor_same D g g' : agree D -> In g D -> In g' D -> equals_or_reverse_equals h' g g' = equals_or_reverse_equals h g g'.
Proof. intros Ag H1 H2. unfold equals_or_reverse_equals, reverse_equals. destruct (seq_same D g g' Ag H1 H2) as [-> ->]. reflexivity. Qed.
Lemma next_same D cur used : agree D -> In cur D -> find_next_segment h' D cur used = find_next_segment h D cur used.
Proof.
  intros Ag Hc. unfold find_next_segment, next_matches. f_equal. destruct (angle_same cur) as [_ ->].
  assert (G : forall l, (forall p, In p l -> In (snd p) D) -> flat_map (fun p : nat * seg F => if existsb (Nat.eqb (fst p)) used then [] else
      if continues h' (snd p) cur && negb (equals_or_reverse_equals h' (snd p) cur) then [(p, angle_difference (frem (seg_end_angle h cur +f fpi) (f2 *f fpi)) (seg_start_angle h' (snd p)))] else []) l =
    flat_map (fun p : nat * seg F => if existsb (Nat.eqb (fst p)) used then [] else
      if continues h (snd p) cur && negb (equals_or_reverse_equals h (snd p) cur) then [(p, angle_difference (frem (seg_end_angle h cur +f fpi) (f2 *f fpi)) (seg_start_angle h (snd p)))] else []) l).
  { induction l as [|p l IH]; intros Hl; simpl; auto. rewrite IH by (intros; apply Hl; now right). f_equal.
    unfold continues. rewrite start_same, end_same, (eor_same D) by (auto; apply Hl; now left). destruct (angle_same (snd p)) as [-> _]. reflexivity. }
  apply G. intros [i x] Hi. apply in_enum0 in Hi. eapply nth_error_In; eauto.
Qed.
Lemma walk_same D used p0 : agree D -> forall n acc c, In (snd c) D -> walk h' D used p0 n acc c = walk h D used p0 n acc c.
Proof.
  intros Ag. induction n as [|n IH]; intros acc c Hc; auto. cbn [walk]. rewrite end_same. destruct (v2eq _ _); auto.
  rewrite (next_same D) by auto. destruct (find_next_segment h D (snd c) used) as [[j g]|] eqn:E; auto. apply IH. apply next_cand in E as (E & _). eapply nth_error_In; eauto.
Qed.
Lemma loop_same D : agree D -> ring_loop h' D = ring_loop h D.
Proof.
  intros Ag. unfold ring_loop. assert (G : forall l st, (forall p, In p l -> In (snd p) D) -> fold_left (ring_step h' D) l st = fold_left (ring_step h D) l st).
  { induction l as [|p l IH]; intros st Hl; auto. cbn [fold_left]. rewrite IH by (intros; apply Hl; now right). f_equal.
    unfold ring_step. destruct st as [used rings]. destruct (existsb _ _); auto. rewrite start_same, (walk_same D); auto. apply Hl. now left. }
  apply G. intros [i x] Hi. apply in_enum0 in Hi. eapply nth_error_In; eauto.
Qed.
Lemma area_shape r r' : ring_shape r' = ring_shape r -> signed_area h' r' = signed_area h r.
Proof.
  destruct r as [c|l], r' as [c'|l']; simpl; try discriminate.
  - intros [= _ E]. now rewrite E.
  - intros [= ->]. f_equal. generalize (f0 : F). induction l as [|g l IH]; intros a; auto. cbn [fold_left]. rewrite start_same, end_same. apply IH.
Qed.
Lemma shape_insert r r' l l' : ring_shape r' = ring_shape r -> map ring_shape l' = map ring_shape l ->
  map ring_shape (insert_ring h' r' l') = map ring_shape (insert_ring h r l).
Proof.
  intros Er. revert l'. induction l as [|x l IH]; intros [|x' l'] El; simpl in El; try discriminate; simpl; [now rewrite Er|].
  injection El as Ex El. rewrite (area_shape _ _ Er), (area_shape _ _ Ex). destruct (ftle _ _); simpl; rewrite ?Er, ?Ex, ?El; auto. f_equal. now apply IH.
Qed.
Lemma shape_sort l : forall l', map ring_shape l' = map ring_shape l -> map ring_shape (sort_rings h' l') = map ring_shape (sort_rings h l).
Proof.
  induction l as [|x l IH]; intros [|x' l'] El; simpl in El; try discriminate; auto. injection El as Ex El. simpl. apply shape_insert; auto.
Qed.
Lemma shape_filter l : forall l', map ring_shape l' = map ring_shape l ->
  map ring_shape (filter (fun r => fgt (signed_area h' r) f0) l') = map ring_shape (filter (fun r => fgt (signed_area h r) f0) l).
Proof.
  induction l as [|x l IH]; intros [|x' l'] El; simpl in El; try discriminate; auto. injection El as Ex El. simpl. rewrite (area_shape _ _ Ex).
  destruct (fgt _ _); simpl; rewrite ?Ex; [f_equal|]; apply IH; auto.
Qed.
Lemma circ_same : map ring_shape (circle_rings h' s) = map ring_shape (circle_rings h s).
Proof.
  unfold circle_rings. generalize (cells s). intros cs. induction cs as [|c cs IH]; auto. simpl. rewrite !map_app, IH. f_equal.
  destruct c; auto. simpl. destruct SG as (_ & _ & _ & E). destruct (E l) as [-> ->]. reflexivity.
Qed.
Hypothesis Ag : agree (directed h s).
Lemma rings_same : map ring_shape (fst (find_rings h' s)) = map ring_shape (fst (find_rings h s)) /\ snd (find_rings h' s) = snd (find_rings h s).
Proof.
  unfold find_rings. rewrite !all_directed, !init_forward, dir_same, fwd_same, (loop_same _ Ag). destruct (ring_loop h (directed h s)) as [used walks]. cbn [fst snd].
  split; auto. apply shape_filter, shape_sort. rewrite !map_app, circ_same. reflexivity.
Qed.
End Two.

Lemma feq_data_pt h h' p q : pdata h' p = pdata h p -> pdata h' q = pdata h q -> v2eq (F:=F) (pdata h p) (pdata h q) = false -> point_eq (getP h' p) (getP h' q) = false /\ point_eq (getP h p) (getP h q) = false.
Proof.
  unfold v2eq, pdata, p_data. intros E1 E2. injection E1 as E1 E3. injection E2 as E2 E4. simpl. unfold point_eq. rewrite E1, E2, E3, E4. intros ->. auto.
Qed.
Lemma C43_lemma h h' s : valid h s -> same_geometry h h' -> points_apart h s -> points_apart h' s ->
  map ring_shape (fst (find_rings h' s)) = map ring_shape (fst (find_rings h s)) /\ snd (find_rings h' s) = snd (find_rings h s).
Proof.
  intros V SG P P'. apply rings_same; auto. intros g g' p q Hg Hg' Hp Hq.
  assert (K : forall g p, In g (directed h s) -> In p (seg_pts g) -> exists c, registered s c /\ In (PPoint p) (prim_refs h c) /\ In (PPoint p) (prim_refs h' c)).
  { clear - V SG. intros g p Hg Hp. assert (exists g0, In g0 (forward h s) /\ In p (seg_pts g0)) as (g0 & H0 & Hp0).
    { unfold directed in Hg. apply in_app_or in Hg as [Hg|Hg]; [eauto|]. apply in_map_iff in Hg as (x & <- & Hx). exists x. split; auto. now apply seg_pts_rev. }
    apply in_forward in H0 as (c & id & Hc & E). exists c. split; [apply (valid_reg _ _ _ V); now apply (in_map snd) in Hc|].
    destruct SG as (E1 & E2 & _). destruct c as [l|l|l|l]; simpl in E; try discriminate; injection E as <-; simpl in *; unfold getL, getA in *; rewrite ?E1, ?E2.
    - destruct Hp0 as [<-|[<-|[]]]; auto.
    - destruct Hp0 as [<-|[]]; auto. }
  destruct (K g p Hg Hp) as (c & R & I & I'). destruct (K g' q Hg' Hq) as (c' & R2 & I2 & I2').
  destruct (P _ _ _ _ R R2 I I2) as [E1 E2]. destruct (P' _ _ _ _ R R2 I' I2') as [E1' E2'].
  destruct (Nat.eq_dec p q) as [<-|N]; [congruence|].
  destruct SG as (_ & _ & Pd & _). destruct (v2eq (pdata h p) (pdata h q)) eqn:Ev; [tauto|].
  destruct (feq_data_pt h h' p q (Pd p) (Pd q) Ev) as [-> ->]. reflexivity.
Qed.
End GL.
