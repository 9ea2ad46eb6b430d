(** * The walks of find_rings against their specification *)
From Coq Require Import List ZArith NArith Arith Bool Lia Permutation Sorted.
From Verif Require Import Arith Vec Prim Cons Sketch Decomp Spec DecompSpec DecompLemmas OrderLemmas.
Import ListNotations.

Section WL.
Context {F : Type} {A : Arith F}.
Hypothesis SW : strict_weak.

Lemma cand_candidate h D used cur j g : cand h D used cur j g <-> candidate (F:=F) h D used cur j g.
Proof.
  unfold cand, candidate, continues, equals_or_reverse_equals, reverse_equals. rewrite orb_false_iff. tauto.
Qed.
(** the fold keeps the maximum, the later of equals *)
Lemma reduce_best (l : list ((nat * seg F) * F)) : forall x, Forall no_nan (map snd (x :: l)) ->
  exists l1 l2, x :: l = l1 ++ fold_left (fun a b => if fgt (snd a) (snd b) then a else b) l x :: l2 /\
    (forall y, In y l1 -> fgt (snd y) (snd (fold_left (fun a b => if fgt (snd a) (snd b) then a else b) l x)) = false) /\
    (forall y, In y l2 -> fgt (snd (fold_left (fun a b => if fgt (snd a) (snd b) then a else b) l x)) (snd y) = true).
Proof.
  induction l as [|y l IH] using rev_ind; intros x Hn.
  - exists [], []. simpl. intuition.
  - rewrite fold_left_app. simpl. change (x :: l ++ [y]) with ((x :: l) ++ [y]) in *. rewrite map_app in Hn. apply Forall_app in Hn as [Hn Hy].
    destruct (IH x Hn) as (l1 & l2 & E & H1 & H2). set (w := fold_left _ l x) in *.
    inversion Hy as [|? ? Ny _]; subst. simpl in Ny.
    assert (Hall : forall z, In z (x :: l) -> no_nan (snd z)).
    { intros z Hz. rewrite Forall_forall in Hn. apply Hn. now apply in_map. }
    assert (Nw : no_nan (snd w)) by (apply Hall; rewrite E; apply in_or_app; simpl; auto).
    destruct (fgt (snd w) (snd y)) eqn:Eg.
    + exists l1, (l2 ++ [y]). rewrite E, <- app_assoc. split; auto. split; auto.
      intros z Hz. apply in_app_or in Hz as [Hz|[<-|[]]]; auto.
    + exists (x :: l), []. split; auto. split; [|intros z []]. intros z Hz.
      assert (Nz := Hall z Hz). rewrite E in Hz. apply in_app_or in Hz as [Hz|[<-|Hz]]; auto.
      * destruct (SW (snd z) (snd w) (snd y)) as [T _]; auto.
      * specialize (H2 z Hz). destruct (SW (snd w) (snd z) (snd y)) as [_ As]; auto. specialize (As H2).
        destruct (SW (snd z) (snd w) (snd y)) as [T _]; auto.
Qed.
Lemma matches_sorted h D cur used : StronglySorted lt (map (fun m => fst (fst m)) (next_matches (F:=F) h D cur used)).
Proof.
  unfold next_matches.
  assert (G : forall l b, StronglySorted lt (map (fun m => fst (fst m)) (flat_map (fun p : nat * seg F =>
      if existsb (Nat.eqb (fst p)) used then []
      else if continues h (snd p) cur && negb (equals_or_reverse_equals h (snd p) cur)
           then [(p, angle_difference (frem (seg_end_angle h cur +f fpi) (f2 *f fpi)) (seg_start_angle h (snd p)))]
           else []) (combine (seq b (length l)) l))) /\
    Forall (fun i => b <= i) (map (fun m => fst (fst m)) (flat_map (fun p : nat * seg F =>
      if existsb (Nat.eqb (fst p)) used then []
      else if continues h (snd p) cur && negb (equals_or_reverse_equals h (snd p) cur)
           then [(p, angle_difference (frem (seg_end_angle h cur +f fpi) (f2 *f fpi)) (seg_start_angle h (snd p)))]
           else []) (combine (seq b (length l)) l)))).
  { induction l as [|g l IH]; intros b; simpl; [split; constructor|]. destruct (IH (S b)) as [S1 F1].
    assert (F2 : Forall (fun i => b <= i) (map (fun m => fst (fst m)) (flat_map (fun p : nat * seg F =>
      if existsb (Nat.eqb (fst p)) used then []
      else if continues h (snd p) cur && negb (equals_or_reverse_equals h (snd p) cur)
           then [(p, angle_difference (frem (seg_end_angle h cur +f fpi) (f2 *f fpi)) (seg_start_angle h (snd p)))]
           else []) (combine (seq (S b) (length l)) l)))).
    { eapply Forall_impl; [|exact F1]. intros; simpl in *; lia. }
    destruct (existsb _ _); [split; auto|]. destruct (_ && _); simpl; split; auto. constructor; auto. }
  apply G.
Qed.
Lemma sorted_split (l1 l2 : list ((nat * seg F) * F)) w : StronglySorted lt (map (fun m => fst (fst m)) (l1 ++ w :: l2)) ->
  (forall y, In y l1 -> fst (fst y) < fst (fst w)) /\ (forall y, In y l2 -> fst (fst w) < fst (fst y)).
Proof.
  induction l1 as [|x l1 IH]; simpl; intros H; inversion H; subst.
  - split; [tauto|]. intros y Hy. rewrite Forall_forall in H3. apply H3. now apply (in_map (fun m => fst (fst m))).
  - destruct (IH H2) as [I1 I2]. split; auto. intros y [<-|Hy]; auto. rewrite Forall_forall in H3. apply H3.
    apply (in_map (fun m => fst (fst m))). apply in_or_app. simpl. auto.
Qed.
Lemma leftmost_unique h D used cur j j' : leftmost (F:=F) h D used cur j -> leftmost h D used cur j' -> j = j'.
Proof.
  intros (g & C & M) (g' & C' & M'). destruct (lt_eq_lt_dec j j') as [[Hl|]|Hl]; auto.
  - destruct (M _ _ C') as [_ X]. destruct (M' _ _ C) as [Y _]. rewrite X in Y by auto. discriminate Y; auto.
  - destruct (M _ _ C') as [X _]. destruct (M' _ _ C) as [_ Y]. rewrite Y in X by auto. discriminate X; auto.
Qed.
Lemma next_leftmost h D used cur : In cur D -> turns_ok h D -> forall j g,
  find_next_segment h D cur used = Some (j, g) <-> (leftmost (F:=F) h D used cur j /\ nth_error D j = Some g).
Proof.
  intros Hc Ht.
  assert (Fw : forall j g, find_next_segment h D cur used = Some (j, g) -> leftmost (F:=F) h D used cur j /\ nth_error D j = Some g).
  { intros j g H. unfold find_next_segment, reduce_max in H. pose proof (matches_sorted h D cur used) as Hs.
    assert (Hm := fun j g t => in_matches h D used cur j g t).
    destruct (next_matches h D cur used) as [|x l]; [discriminate|]. injection H as H.
    assert (Nn : Forall no_nan (map snd (x :: l))).
    { apply Forall_forall. intros t Hi. apply in_map_iff in Hi as ([[i b] t'] & <- & Hi). apply Hm in Hi as ((Hi & _) & ->).
      apply Ht; auto. eapply nth_error_In; eauto. }
    destruct (reduce_best l x Nn) as (l1 & l2 & E & H1 & H2). set (w := fold_left _ l x) in *.
    rewrite E in Hs. apply sorted_split in Hs as [S1 S2]. destruct w as [[j0 g0] t] eqn:Ew. simpl in H. injection H as -> ->.
    assert (Hw : In ((j, g), t) (x :: l)) by (rewrite E; apply in_or_app; simpl; auto).
    apply Hm in Hw as [Cw ->]. split; [|apply Cw]. exists g. rewrite <- cand_candidate. split; auto.
    intros k g' Ck. rewrite <- cand_candidate in Ck.
    assert (Hk : In ((k, g'), turn h cur g') (x :: l)) by (apply Hm; auto). rewrite E in Hk. apply in_app_or in Hk as [Hk|[Hk|Hk]].
    - specialize (S1 _ Hk). specialize (H1 _ Hk). simpl in *. split; [auto|lia].
    - injection Hk as <- <- _. split; lia.
    - specialize (S2 _ Hk). specialize (H2 _ Hk). simpl in *. split; [lia|auto]. }
  intros j g. split; [apply Fw|]. intros [Hl Hn].
  destruct (find_next_segment h D cur used) as [[j' g']|] eqn:E.
  - destruct (Fw _ _ eq_refl) as [Hl' Hn']. assert (j = j') by (eapply leftmost_unique; eauto). subst j'. congruence.
  - exfalso. destruct Hl as (g' & C & _). apply cand_candidate in C. exact (proj1 (next_none _ _ _ _) E _ _ C).
Qed.

Lemma cwalk_ring h D used p0 c w : turns_ok h D -> consistent D c -> cwalk (F:=F) h D used p0 c w -> ring_walk h D used p0 (fst c) (map fst w).
Proof.
  intros Ht Hc W. induction W as [c E|c d w E En W IH]; simpl.
  - eapply rw_end; eauto.
  - assert (Hd : consistent D d) by (destruct d as [j g]; apply next_cand in En as [H _]; exact H).
    eapply rw_step; eauto. destruct d as [j g]. apply next_leftmost in En; [apply En | eapply nth_error_In; exact Hc | auto].
Qed.
Lemma ring_cwalk h D used p0 i w : turns_ok h D -> ring_walk (F:=F) h D used p0 i w ->
  forall g, nth_error D i = Some g -> exists w', w = map fst w' /\ cwalk h D used p0 (i, g) w'.
Proof.
  intros Ht W. induction W as [i g Hn E|i g j w Hn E Hl W IH]; intros g0 Hg; rewrite Hn in Hg; injection Hg as <-.
  - exists [(i, g)]. split; auto. now constructor.
  - assert (Hj : exists gj, nth_error D j = Some gj) by (destruct Hl as (gj & (H & _) & _); eauto). destruct Hj as (gj & Hj).
    destruct (IH _ Hj) as (w' & -> & W'). exists ((i, g) :: w'). split; auto. eapply cwalk_step; eauto.
    apply next_leftmost; auto. eapply nth_error_In; eauto.
Qed.
Lemma concat_map_fst (ws : list (list (nat * seg F))) : concat (map (map fst) ws) = map fst (concat ws).
Proof. now rewrite concat_map. Qed.
Lemma greedy_all h D : turns_ok h D -> forall m ws, m <= length D -> greedy (F:=F) h D (seq 0 m) ws -> all_walks h D m (map (map fst) ws).
Proof.
  intros Ht.
  assert (G : forall done ws, greedy h D done ws -> forall m, done = seq 0 m -> all_walks h D m (map (map fst) ws)).
  { induction 1 as [|done ws i Gr IH Hi|done ws i g Gr IH Hu Hn Hd|done ws i g w Gr IH Hu Hn W L]; intros m Em.
    - destruct m; [constructor | discriminate].
    - destruct m as [|m]; [destruct done; discriminate|]. rewrite seq_S in Em. apply app_inj_tail in Em as [-> ->].
      apply aw_used; auto. now rewrite concat_map_fst.
    - destruct m as [|m]; [destruct done; discriminate|]. rewrite seq_S in Em. apply app_inj_tail in Em as [-> ->]. simpl in *.
      eapply aw_dead; eauto; rewrite concat_map_fst; auto. intros w W. destruct (ring_cwalk _ _ _ _ _ _ Ht W _ Hn) as (w' & -> & W').
      rewrite map_length. eauto.
    - destruct m as [|m]; [destruct done; discriminate|]. rewrite seq_S in Em. apply app_inj_tail in Em as [-> ->]. simpl in *.
      rewrite map_app. simpl. eapply aw_ring; eauto; try rewrite concat_map_fst; auto.
      + apply (cwalk_ring h D _ _ (m, g)); auto.
      + now rewrite map_length. }
  intros m ws _ Gr. now apply (G _ _ Gr).
Qed.
Lemma at_positions_map (D : list (seg F)) w : Forall (consistent D) w -> at_positions D (map fst w) = map snd w.
Proof.
  unfold at_positions. induction 1 as [|[i g] w H _ IH]; simpl; auto. unfold consistent in H. simpl in H. rewrite H. simpl. now rewrite IH.
Qed.
Lemma ring_walk_fun h D used p0 i w : ring_walk (F:=F) h D used p0 i w -> forall w', ring_walk h D used p0 i w' -> w = w'.
Proof.
  induction 1 as [i g Hn E|i g j w Hn E Hl W IH]; intros w' W'; inversion W'; subst; auto; try congruence.
  rewrite Hn in H. injection H as <-. assert (j = j0) by (eapply leftmost_unique; eauto). subst. f_equal. auto.
Qed.
Lemma all_walks_fun h D m ws : all_walks (F:=F) h D m ws -> forall ws', all_walks h D m ws' -> ws = ws'.
Proof.
  induction 1 as [|m ws Aw IH Hi|m ws g Aw IH Hu Hn Hd|m ws g w Aw IH Hu Hn W L]; intros ws' Aw'; inversion Aw'; subst; auto;
  repeat match goal with H : all_walks h D m _ |- _ => match H with Aw => fail 1 | _ => apply IH in H; subst end end; auto; try tauto.
  - match goal with H : nth_error D m = Some ?x, R : ring_walk _ _ _ _ _ _ |- _ =>
      assert_fails (constr_eq x g); assert (x = g) by congruence; subst x; apply Hd in R end. lia.
  - match goal with H : nth_error D m = Some ?x, R : forall w, _ |- _ =>
      assert_fails (constr_eq x g); assert (x = g) by congruence; subst x; apply R in W end. lia.
  - match goal with H : nth_error D m = Some ?x |- _ =>
      assert_fails (constr_eq x g); assert (x = g) by congruence; subst x end. f_equal. f_equal. eapply ring_walk_fun; eauto.
Qed.
Lemma rings_by_walks h s : turns_ok h (directed h s) -> exists ws, all_walks h (directed h s) (length (directed h s)) ws /\
  fst (find_rings h s) = filter (fun r => fgt (signed_area h r) f0)
    (sort_rings h (map (fun w => RSegments (at_positions (directed h s) w)) ws ++ map RCircle (circles h s))) /\
  snd (find_rings h s) = flat_map (fun i => if existsb (Nat.eqb i) (concat ws) then [] else at_positions (forward h s) [i]) (seq 0 (length (forward h s))).
Proof.
  intros Ht. destruct (find_rings_spec h s) as (ws & G & -> & ->). exists (map (map fst) ws).
  split; [apply greedy_all; auto|]. destruct (greedy_nodup _ _ _ _ G) as [_ C]. split.
  - do 3 f_equal. rewrite map_map. apply map_ext_in. intros w Hw. f_equal. symmetry. apply at_positions_map.
    rewrite Forall_forall in *. intros x Hx. apply C. apply in_concat. eauto.
  - rewrite concat_map_fst. unfold unused_segments.
    assert (E : forall (l : list (seg F)) (b : nat) (Q : nat -> bool), (forall i g, In (i, g) (combine (seq b (length l)) l) -> nth_error (forward h s) i = Some g) ->
      flat_map (fun p => if Q (fst p) then [] else [snd p]) (combine (seq b (length l)) l) =
      flat_map (fun i => if Q i then [] else at_positions (forward h s) [i]) (seq b (length l))).
    { induction l as [|g l IH]; intros b Q Hl; simpl; auto. rewrite IH by (intros; apply Hl; now right).
      f_equal. destruct (Q b); auto. unfold at_positions. simpl. rewrite (Hl b g) by now left. reflexivity. }
    apply (E _ 0 (fun i => existsb (Nat.eqb i) (map fst (concat ws)))). intros i g. apply in_enum0.
Qed.

(** sortedness *)
Hypothesis TO : total_order.
Lemma insert_sorted h r l : StronglySorted (fun a b => ftle (signed_area h a) (signed_area h b) = true) l ->
  StronglySorted (fun a b => ftle (signed_area (F:=F) h a) (signed_area h b) = true) (insert_ring h r l).
Proof.
  induction 1 as [|x l S IH H]; simpl; [repeat constructor|]. destruct (ftle (signed_area h r) (signed_area h x)) eqn:E.
  - constructor; [now constructor|]. constructor; auto. rewrite Forall_forall in *. intros y Hy.
    destruct (TO (signed_area h r) (signed_area h x) (signed_area h y)) as [_ T]. auto.
  - constructor; auto. rewrite Forall_forall in *. intros y Hy. apply (Permutation_in _ (insert_perm h r l)) in Hy as [<-|Hy]; auto.
    destruct (TO (signed_area h r) (signed_area h x) (signed_area h x)) as [[|] _]; auto. congruence.
Qed.
Lemma sort_sorted h l : StronglySorted (fun a b => ftle (signed_area (F:=F) h a) (signed_area h b) = true) (sort_rings h l).
Proof. induction l; simpl; [constructor | now apply insert_sorted]. Qed.
Lemma rings_sorted h s : StronglySorted (fun a b => ftle (signed_area (F:=F) h a) (signed_area h b) = true) (fst (find_rings h s)).
Proof. destruct (find_rings_spec h s) as (ws & _ & -> & _). apply filter_sorted, sort_sorted. Qed.
End WL.
