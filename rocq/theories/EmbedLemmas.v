(** * Proofs for C90 *)
From Coq Require Import List ZArith NArith Arith Bool Lia.
From Verif Require Import Arith Vec Prim Cons Sketch Solve Api HeapLemmas Spec SpecLemmas SymSpec EmbedSpec.
Import ListNotations.

Lemma pcell_eq_dec (c d : pcell) : {c = d} + {c <> d}. Proof. decide equality; apply Nat.eq_dec. Qed.

Section E.
Context {F : Type} {A : Arith F}.
Variables (r : renaming) (s1 s2 : sketch).
Hypothesis CE : cells s2 = map (ren r) (cells s1).
Hypothesis INJ : forall c d, In c (cells s1) -> In d (cells s1) -> ren r c = ren r d -> c = d.
Notation inS c := (In c (cells s1)).

Record E (g : bool) (h1 h2 : heap F) : Prop := {
  e_live1 : forall c, inS c -> cell_ok h1 c;
  e_live2 : forall c, inS c -> cell_ok h2 (ren r c);
  e_cons : map (getK h2) (s_cons s2) = map (fun k => place_con r (getK h1 k)) (s_cons s1);
  e_refs : forall c, inS c -> prim_refs h2 (ren r c) = map (ren r) (prim_refs h1 c);
  e_data : forall c, inS c -> prim_data h2 (ren r c) = prim_data h1 c;
  e_closed : forall c d, inS c -> In d (prim_refs h1 c) -> inS d;
  e_cclosed : forall k d, In k (s_cons s1) -> In d (con_refs (getK h1 k)) -> inS d;
  e_grad : g = true -> forall c, inS c -> prim_grad h2 (ren r c) = prim_grad h1 c }.

Lemma weak g h1 h2 : E g h1 h2 -> E false h1 h2.
Proof. intros []. constructor; auto. discriminate. Qed.

(** ** Writing one cell *)
Lemma ok_struct h h' c : struct_eq h h' -> cell_ok h c -> cell_ok h' c.
Proof. intros (H1&_&H3&H4&H5&_). destruct c; simpl; rewrite ?H1, ?H3, ?H4, ?H5; auto. Qed.
Definition only (c : pcell) (h h' : heap F) :=
  struct_eq h h' /\ (forall d, d <> c -> prim_data h' d = prim_data h d /\ prim_grad h' d = prim_grad h d).
Lemma write_E g g' c h1 h2 h1' h2' : E g h1 h2 -> inS c -> only c h1 h1' -> only (ren r c) h2 h2' ->
  prim_data h2' (ren r c) = prim_data h1' c -> (g' = true -> g = true /\ prim_grad h2' (ren r c) = prim_grad h1' c) -> E g' h1' h2'.
Proof.
  intros [] Hc [S1 O1] [S2 O2] D G. constructor.
  - intros d Hd. eapply ok_struct; eauto.
  - intros d Hd. eapply ok_struct; eauto.
  - transitivity (map (getK h2) (s_cons s2)); [apply map_ext; intros; now apply struct_getK|]. rewrite e_cons0. apply map_ext. intros k. now rewrite (struct_getK _ _ _ S1).
  - intros d Hd. now rewrite (struct_refs _ _ _ S1), (struct_refs _ _ _ S2), e_refs0.
  - intros d Hd. assert (d = c \/ d <> c) as [->|Ne] by (destruct (pcell_eq_dec d c); auto); auto.
    destruct (O1 d Ne) as [-> _]. destruct (O2 (ren r d)) as [-> _]; auto.
  - intros d x Hd. rewrite (struct_refs _ _ _ S1). eauto.
  - intros k d Hk. rewrite (struct_getK _ _ _ S1). eauto.
  - intros Hg d Hd. destruct (G Hg) as [Hg' G']. assert (d = c \/ d <> c) as [->|Ne] by (destruct (pcell_eq_dec d c); auto); auto.
    destruct (O1 d Ne) as [_ ->]. destruct (O2 (ren r d)) as [_ ->]; auto.
Qed.
Lemma only_P h l x : only (PPoint l) h (setP h l x).
Proof. split; [apply struct_setP|]. intros. split; [now apply data_setP_other | now apply grad_setP_other]. Qed.
Lemma only_A h l x : a_center x = a_center (getA h l) -> a_cw x = a_cw (getA h l) -> only (PArc l) h (setA h l x).
Proof. intros. split; [now apply struct_setA|]. intros. split; [now apply data_setA_other | now apply grad_setA_other]. Qed.
Lemma only_C h l x : c_center x = c_center (getC h l) -> only (PCircle l) h (setC h l x).
Proof. intros. split; [now apply struct_setC|]. intros. split; [now apply data_setC_other | now apply grad_setC_other]. Qed.
Lemma getP_same (h : heap F) l x : l < length (h_pts h) -> getP (setP h l x) l = x.
Proof. intros H. rewrite getP_setP, Nat.eqb_refl. apply Nat.ltb_lt in H. now rewrite H. Qed.
Lemma getA_same (h : heap F) l x : l < length (h_arcs h) -> getA (setA h l x) l = x.
Proof. intros H. rewrite getA_setA, Nat.eqb_refl. apply Nat.ltb_lt in H. now rewrite H. Qed.
Lemma getC_same (h : heap F) l x : l < length (h_circs h) -> getC (setC h l x) l = x.
Proof. intros H. rewrite getC_setC, Nat.eqb_refl. apply Nat.ltb_lt in H. now rewrite H. Qed.
Lemma put_P g g' h1 h2 l x x' : E g h1 h2 -> inS (PPoint l) -> p_x x' = p_x x -> p_y x' = p_y x ->
  (g' = true -> g = true /\ p_gx x' = p_gx x /\ p_gy x' = p_gy x) -> E g' (setP h1 l x) (setP h2 (rn_point r l) x').
Proof.
  intros H Hc X Y G. pose proof (e_live1 _ _ _ H _ Hc) as L1. pose proof (e_live2 _ _ _ H _ Hc) as L2. simpl in L1, L2.
  apply (write_E g g' _ _ _ _ _ H Hc (only_P _ _ _) (only_P _ _ _)); cbn [ren prim_data prim_grad]; rewrite !getP_same by auto.
  - now rewrite X, Y.
  - intros T. destruct (G T) as (T' & -> & ->). auto.
Qed.
Lemma put_A g g' h1 h2 l x x' : E g h1 h2 -> inS (PArc l) -> a_center x = a_center (getA h1 l) -> a_cw x = a_cw (getA h1 l) ->
  a_center x' = a_center (getA h2 (rn_arc r l)) -> a_cw x' = a_cw (getA h2 (rn_arc r l)) ->
  a_radius x' = a_radius x -> a_sa x' = a_sa x -> a_ea x' = a_ea x ->
  (g' = true -> g = true /\ a_gr x' = a_gr x /\ a_gsa x' = a_gsa x /\ a_gea x' = a_gea x) -> E g' (setA h1 l x) (setA h2 (rn_arc r l) x').
Proof.
  intros H Hc C1 W1 C2 W2 X Y Z G. pose proof (e_live1 _ _ _ H _ Hc) as L1. pose proof (e_live2 _ _ _ H _ Hc) as L2. simpl in L1, L2.
  apply (write_E g g' _ _ _ _ _ H Hc (only_A _ _ _ C1 W1) (only_A _ _ _ C2 W2)); cbn [ren prim_data prim_grad]; rewrite !getA_same by auto.
  - now rewrite X, Y, Z.
  - intros T. destruct (G T) as (T' & -> & -> & ->). auto.
Qed.
Lemma put_C g g' h1 h2 l x x' : E g h1 h2 -> inS (PCircle l) -> c_center x = c_center (getC h1 l) ->
  c_center x' = c_center (getC h2 (rn_circle r l)) -> c_radius x' = c_radius x ->
  (g' = true -> g = true /\ c_gr x' = c_gr x) -> E g' (setC h1 l x) (setC h2 (rn_circle r l) x').
Proof.
  intros H Hc C1 C2 X G. pose proof (e_live1 _ _ _ H _ Hc) as L1. pose proof (e_live2 _ _ _ H _ Hc) as L2. simpl in L1, L2.
  apply (write_E g g' _ _ _ _ _ H Hc (only_C _ _ _ C1) (only_C _ _ _ C2)); cbn [ren prim_data prim_grad]; rewrite !getC_same by auto.
  - now rewrite X.
  - intros T. destruct (G T) as (T' & ->). auto.
Qed.

(** ** Readings *)
Lemma pdata_E g h1 h2 l : E g h1 h2 -> inS (PPoint l) -> pdata h2 (rn_point r l) = pdata h1 l.
Proof. intros H Hc. pose proof (e_data _ _ _ H _ Hc) as D. cbn [ren prim_data] in D. unfold pdata, p_data. congruence. Qed.
Lemma line_E g h1 h2 l : E g h1 h2 -> inS (PLine l) -> l_start (getL h2 (rn_line r l)) = rn_point r (l_start (getL h1 l)) /\
  l_end (getL h2 (rn_line r l)) = rn_point r (l_end (getL h1 l)) /\ inS (PPoint (l_start (getL h1 l))) /\ inS (PPoint (l_end (getL h1 l))).
Proof.
  intros H Hc. pose proof (e_refs _ _ _ H _ Hc) as D. cbn [ren prim_refs map] in D.
  repeat split; try congruence; apply (e_closed _ _ _ H _ _ Hc); simpl; auto.
Qed.
Lemma start_E g h1 h2 l : E g h1 h2 -> inS (PLine l) -> line_start h2 (rn_line r l) = line_start h1 l.
Proof. intros H Hc. destruct (line_E _ _ _ _ H Hc) as (E1 & _ & I1 & _). unfold line_start. rewrite E1. eapply pdata_E; eauto. Qed.
Lemma end_E g h1 h2 l : E g h1 h2 -> inS (PLine l) -> line_end h2 (rn_line r l) = line_end h1 l.
Proof. intros H Hc. destruct (line_E _ _ _ _ H Hc) as (_ & E1 & _ & I1). unfold line_end. rewrite E1. eapply pdata_E; eauto. Qed.
Lemma arc_E g h1 h2 l : E g h1 h2 -> inS (PArc l) -> a_center (getA h2 (rn_arc r l)) = rn_point r (a_center (getA h1 l)) /\
  inS (PPoint (a_center (getA h1 l))) /\ a_radius (getA h2 (rn_arc r l)) = a_radius (getA h1 l) /\
  a_sa (getA h2 (rn_arc r l)) = a_sa (getA h1 l) /\ a_ea (getA h2 (rn_arc r l)) = a_ea (getA h1 l).
Proof.
  intros H Hc. pose proof (e_refs _ _ _ H _ Hc) as D. pose proof (e_data _ _ _ H _ Hc) as D'. cbn [ren prim_refs prim_data map] in D, D'.
  repeat split; try congruence. apply (e_closed _ _ _ H _ _ Hc); simpl; auto.
Qed.
Lemma apoints_E g h1 h2 l : E g h1 h2 -> inS (PArc l) ->
  arc_start_point h2 (getA h2 (rn_arc r l)) = arc_start_point h1 (getA h1 l) /\ arc_end_point h2 (getA h2 (rn_arc r l)) = arc_end_point h1 (getA h1 l) /\
  arc_start_point_gradient (getA h2 (rn_arc r l)) = arc_start_point_gradient (getA h1 l) /\
  arc_end_point_gradient (getA h2 (rn_arc r l)) = arc_end_point_gradient (getA h1 l).
Proof.
  intros H Hc. destruct (arc_E _ _ _ _ H Hc) as (EC & I1 & E1 & E2 & E3). pose proof (pdata_E _ _ _ _ H I1) as P. unfold pdata, p_data in P.
  unfold arc_start_point, arc_end_point, arc_start_point_gradient, arc_end_point_gradient. cbv zeta. rewrite EC, E1, E2, E3.
  injection P as -> ->. auto.
Qed.
Ltac ins := match goal with H : forall d, In d (con_refs ?c) -> _ |- In _ (cells s1) => apply H; simpl; auto end.
Ltac reads H := rewrite ?(pdata_E _ _ _ _ H), ?(start_E _ _ _ _ H), ?(end_E _ _ _ _ H) by ins.
Lemma loss_E g h1 h2 c : E g h1 h2 -> (forall d, In d (con_refs c) -> inS d) -> loss_value h2 (place_con r c) = loss_value h1 c.
Proof.
  intros H Hc. destruct c; cbn [place_con loss_value]; unfold current_angle, current_distance, current_hdistance, current_vdistance; reads H; try reflexivity.
  - destruct (apoints_E _ _ _ a H) as (E1 & E2 & _); [ins|]. now rewrite E2.
  - destruct (apoints_E _ _ _ a H) as (E1 & E2 & _); [ins|]. now rewrite E1.
Qed.
Definition place_target (t : gtarget) : gtarget :=
  match t with GPoint l => GPoint (rn_point r l) | GLine l => GLine (rn_line r l) | GArc l => GArc (rn_arc r l) end.
Definition target_cell (t : gtarget) : pcell := match t with GPoint l => PPoint l | GLine l => PLine l | GArc l => PArc l end.
Definition place_row (tr : gtarget * vec F) := (place_target (fst tr), snd tr).
Ltac spl := repeat match goal with |- context [if ?b then _ else _] => destruct b; [reflexivity|] end; try reflexivity.
Lemma rows_E g h1 h2 c : E g h1 h2 -> (forall d, In d (con_refs c) -> inS d) -> grad_rows h2 (place_con r c) = map place_row (grad_rows h1 c).
Proof.
  intros H Hc. destruct c; cbn [place_con grad_rows]; cbv zeta; reads H; try (spl; fail).
  - destruct (apoints_E _ _ _ a H) as (E1 & E2 & E3 & E4); [ins|]. rewrite E2, E4. reflexivity.
  - destruct (apoints_E _ _ _ a H) as (E1 & E2 & E3 & E4); [ins|]. rewrite E1, E3. reflexivity.
Qed.
Lemma targets h c t row : In (t, row) (grad_rows h c) -> In (target_cell t) (con_refs c).
Proof.
  destruct c; cbn [grad_rows]; cbv zeta; repeat match goal with |- context [if ?b then _ else _] => destruct b; [intros []|] end;
  intros X; repeat (destruct X as [X|X]; [injection X as <- _; simpl; auto|]); destruct X.
Qed.

(** ** Computations *)
Definition rel (g : bool) {T} (m1 m2 : M F T) : Prop := forall h1 h2, E g h1 h2 -> E g (fst (m1 h1)) (fst (m2 h2)) /\ snd (m2 h2) = snd (m1 h1).
Lemma rel_ret g {T} (x : T) : rel g (mret x) (mret x). Proof. intros h1 h2 H. split; auto. Qed.
Lemma rel_panic g {T} : rel g (@mpanic F T) mpanic. Proof. intros h1 h2 H. split; auto. Qed.
Lemma rel_assert g b : rel g (massert b) (massert b). Proof. destruct b; [apply rel_ret | apply rel_panic]. Qed.
Lemma rel_bind g {T U} (m1 m2 : M F T) (f1 f2 : T -> M F U) : rel g m1 m2 -> (forall x, rel g (f1 x) (f2 x)) -> rel g (mbind m1 f1) (mbind m2 f2).
Proof.
  intros Hm Hf h1 h2 H. destruct (Hm h1 h2 H) as [H' Q]. unfold mbind. destruct (m1 h1) as [h1' [x|]], (m2 h2) as [h2' [y|]]; simpl in *; try discriminate; auto.
  injection Q as ->. now apply Hf.
Qed.
Lemma rel_here g {T} (m1 m2 : heap F -> M F T) : (forall h1 h2, E g h1 h2 -> rel g (m1 h1) (m2 h2)) -> rel g (fun h => m1 h h) (fun h => m2 h h).
Proof. intros Hm h1 h2 H. now apply Hm. Qed.
Lemma rel_for g {T} (f : T -> T) (l : list T) (f1 f2 : T -> M F unit) : (forall x, In x l -> rel g (f1 x) (f2 (f x))) -> rel g (mfor l f1) (mfor (map f l) f2).
Proof.
  induction l as [|x l IH]; intros Hl; cbn [mfor map]; [apply rel_ret|]. apply rel_bind; [apply Hl; now left | intros _; apply IH; intros; apply Hl; now right].
Qed.

Lemma padd_E l row : inS (PPoint l) -> rel true (Point2_add_to_gradient l row) (Point2_add_to_gradient (rn_point r l) row).
Proof.
  intros Hc. apply rel_bind; [apply rel_assert|]. intros _ h1 h2 H. cbn [fst snd]. split; auto.
  pose proof (e_data _ _ _ H _ Hc) as D. pose proof (e_grad _ _ _ H eq_refl _ Hc) as G. cbn [ren prim_data prim_grad] in D, G. injection D as D1 D2. injection G as G1 G2.
  eapply put_P; eauto; cbn [p_x p_y p_gx p_gy]; auto. intros _. rewrite G1, G2. auto.
Qed.
Lemma add_E t row : inS (target_cell t) -> rel true (add_to_gradient t row) (add_to_gradient (place_target t) row).
Proof.
  intros Hc. destruct t as [l|l|l]; cbn [target_cell place_target add_to_gradient] in *.
  - now apply padd_E.
  - apply rel_bind; [apply rel_assert|]. intros _ h1 h2 H. destruct (line_E _ _ _ _ H Hc) as (E1 & E2 & I1 & I2). cbv zeta. rewrite E1, E2.
    refine (rel_bind _ _ _ _ _ (padd_E _ _ I1) (fun _ => padd_E _ _ I2) h1 h2 H).
  - apply rel_bind; [apply rel_assert|]. intros _ h1 h2 H. destruct (arc_E _ _ _ _ H Hc) as (EC & I1 & _). rewrite EC.
    refine (rel_bind _ _ _ _ _ (padd_E _ _ I1) _ h1 h2 H). clear - INJ Hc. intros _ h1 h2 H. cbv zeta. cbn [fst snd]. split; auto.
    destruct (arc_E _ _ _ _ H Hc) as (EC & I1 & E1 & E2 & E3). pose proof (e_grad _ _ _ H eq_refl _ Hc) as G. cbn [ren prim_grad] in G. injection G as G1 G2 G3.
    eapply put_A; eauto. cbn [a_gr a_gsa a_gea]. intros _. rewrite G1, G2, G3. auto.
Qed.
Lemma upd_E k : (forall d, In d (con_refs k) -> inS d) -> rel true (update_gradient k) (update_gradient (place_con r k)).
Proof.
  intros Hk. apply (rel_here true (fun h => mfor (grad_rows h k) _) (fun h => mfor (grad_rows h (place_con r k)) _)). intros h1 h2 H.
  rewrite (rows_E _ _ _ _ H Hk). apply rel_for. intros [t row] Ht. cbn [place_row fst snd]. apply add_E. apply Hk. eapply targets; eauto.
Qed.
Lemma zero_E g h1 h2 : E g h1 h2 -> E true (zero_all s1 h1) (zero_all s2 h2).
Proof.
  intros H0. unfold zero_all. rewrite CE.
  assert (K : forall l h1 h2, incl l (cells s1) -> E false h1 h2 -> (forall c, inS c -> ~ In c l -> prim_grad h2 (ren r c) = prim_grad h1 c) ->
    E true (fold_left prim_zero l h1) (fold_left prim_zero (map (ren r) l) h2)).
  { clear h1 h2 H0. induction l as [|c l IH]; intros h1 h2 Hl H G; cbn [fold_left map].
    - destruct H. constructor; auto.
    - assert (Hc : inS c) by (apply Hl; now left).
      assert (H' : E false (prim_zero h1 c) (prim_zero h2 (ren r c))).
      { pose proof (e_data _ _ _ H _ Hc) as D. destruct c as [p|p|p|p]; cbn [prim_zero ren prim_data] in *; auto; cbv zeta.
        - injection D as D1 D2. eapply put_P; eauto; discriminate.
        - injection D as D1 D2 D3. eapply put_A; eauto; discriminate.
        - injection D as D1. eapply put_C; eauto; discriminate. }
      apply IH; auto; [intros x Hx; apply Hl; now right|].
      intros d Hd Nd. destruct (pcell_eq_dec c d) as [<-|Ne].
      + pose proof (e_live1 _ _ _ H _ Hc) as L1. pose proof (e_live2 _ _ _ H _ Hc) as L2. destruct c; cbn [prim_zero ren prim_grad cell_ok] in *; cbv zeta; auto;
          now rewrite ?getP_same, ?getA_same, ?getC_same by auto.
      + rewrite !zero_grad_other; auto. apply G; auto. intros [X|X]; auto. }
  apply K; [apply incl_refl | eapply weak; eauto | intros c Hc Nc; contradiction].
Qed.
Lemma rel_true {T} g (m1 m2 : M F T) : rel true m1 m2 -> forall h1 h2, E true h1 h2 -> E g (fst (m1 h1)) (fst (m2 h2)) /\ snd (m2 h2) = snd (m1 h1).
Proof. intros Hm h1 h2 H. destruct (Hm h1 h2 H) as [H' Q]. split; auto. destruct g; auto. eapply weak; eauto. Qed.
Lemma data_E g h1 h2 : E g h1 h2 -> get_data h2 s2 = get_data h1 s1.
Proof.
  intros H. unfold get_data. rewrite CE. assert (I : incl (cells s1) (cells s1)) by apply incl_refl. revert I. generalize (cells s1) at 1 3 4. intros l. induction l as [|c l IH]; intros I; simpl; auto.
  rewrite IH by (intros x Hx; apply I; now right). f_equal. apply (e_data _ _ _ H). apply I. now left.
Qed.
Lemma stored_E h1 h2 : E true h1 h2 -> stored_gradient s2 h2 = stored_gradient s1 h1.
Proof.
  intros H. unfold stored_gradient. rewrite CE. assert (I : incl (cells s1) (cells s1)) by apply incl_refl. revert I. generalize (cells s1) at 1 3 4. intros l. induction l as [|c l IH]; intros I; simpl; auto.
  rewrite IH by (intros x Hx; apply I; now right). f_equal. apply (e_grad _ _ _ H eq_refl). apply I. now left.
Qed.
Lemma allfin_E h1 h2 : E true h1 h2 -> forallb (fun c => all_finite (prim_grad h2 c)) (cells s2) = forallb (fun c => all_finite (prim_grad h1 c)) (cells s1).
Proof.
  intros H. rewrite CE. assert (I : incl (cells s1) (cells s1)) by apply incl_refl. revert I. generalize (cells s1) at 1 3 4. intros l. induction l as [|c l IH]; intros I; simpl; auto.
  rewrite IH by (intros x Hx; apply I; now right). f_equal. f_equal. apply (e_grad _ _ _ H eq_refl). apply I. now left.
Qed.
Lemma per_E g h1 h2 : E g h1 h2 -> get_loss_per_constraint h2 s2 = get_loss_per_constraint h1 s1.
Proof.
  intros H. unfold get_loss_per_constraint. rewrite <- (map_map (getK h2) (loss_value h2)), (e_cons _ _ _ H), map_map. apply map_ext_in. intros k Hk.
  eapply loss_E; eauto. intros d. now apply (e_cclosed _ _ _ H).
Qed.
Lemma loss_fold (h : heap F) s : get_loss h s = fold_left fadd (get_loss_per_constraint h s) f0.
Proof. unfold get_loss, get_loss_per_constraint. generalize f0. induction (s_cons s) as [|k l IH]; intros a; simpl; auto. Qed.
Lemma getloss_E g h1 h2 : E g h1 h2 -> get_loss h2 s2 = get_loss h1 s1.
Proof. intros H. rewrite !loss_fold. now rewrite (per_E _ _ _ H). Qed.

(** the constraints, one after the other *)
Lemma upds_E ks1 ks2 : incl ks1 (s_cons s1) -> forall g h1 h2, g = true -> E g h1 h2 -> map (getK h2) ks2 = map (fun k => place_con r (getK h1 k)) ks1 ->
  E g (fst (mfor ks1 (fun k h => update_gradient (getK h k) h) h1)) (fst (mfor ks2 (fun k h => update_gradient (getK h k) h) h2)) /\
  snd (mfor ks2 (fun k h => update_gradient (getK h k) h) h2) = snd (mfor ks1 (fun k h => update_gradient (getK h k) h) h1).
Proof.
  revert ks2. induction ks1 as [|k ks1 IH]; intros [|k' ks2] Hi g h1 h2 -> H Q; try discriminate; cbn [mfor]; [split; auto|].
  cbn [map] in Q. injection Q as Qk Q.
  assert (Hk : forall d, In d (con_refs (getK h1 k)) -> inS d) by (intros d; apply (e_cclosed _ _ _ H); apply Hi; now left).
  destruct (upd_E _ Hk h1 h2 H) as [H' V]. rewrite <- Qk in H', V.
  pose proof (proj1 (update_sd (getK h1 k) h1)) as T1. pose proof (proj1 (update_sd (getK h2 k') h2)) as T2.
  unfold mbind. destruct (update_gradient (getK h1 k) h1) as [g1 [[]|]], (update_gradient (getK h2 k') h2) as [g2 [[]|]]; cbn [fst snd] in *; try discriminate; auto.
  apply IH; auto; [intros x Hx; apply Hi; now right|].
  transitivity (map (getK h2) ks2); [apply map_ext; intros; now apply struct_getK|]. rewrite Q. apply map_ext. intros x. now rewrite (struct_getK _ _ _ T1).
Qed.
Lemma grad_E g : rel g (get_gradient s1) (get_gradient s2).
Proof.
  intros h1 h2 H. apply zero_E in H. unfold get_gradient. revert H. generalize (zero_all s1 h1) (zero_all s2 h2). clear h1 h2.
  refine (rel_true g _ _ _). apply rel_bind.
  - intros h1 h2 H. apply upds_E; auto; [apply incl_refl | apply (e_cons _ _ _ H)].
  - intros _. apply (rel_here true (fun h => mbind (massert (forallb (fun c => all_finite (prim_grad h c)) (cells s1))) (fun _ => mret (stored_gradient s1 h)))
      (fun h => mbind (massert (forallb (fun c => all_finite (prim_grad h c)) (cells s2))) (fun _ => mret (stored_gradient s2 h)))).
    intros h1 h2 H. rewrite (allfin_E _ _ H), (stored_E _ _ H). apply rel_bind; [apply rel_assert | intros _; apply rel_ret].
Qed.
Lemma jrows_E ks1 : incl ks1 (s_cons s1) -> forall ks2 g h1 h2, E g h1 h2 -> map (getK h2) ks2 = map (fun k => place_con r (getK h1 k)) ks1 ->
  E g (fst (jacobian_rows s1 ks1 h1)) (fst (jacobian_rows s2 ks2 h2)) /\ snd (jacobian_rows s2 ks2 h2) = snd (jacobian_rows s1 ks1 h1).
Proof.
  induction ks1 as [|k ks1 IH]; intros Hi [|k' ks2] g h1 h2 H Q; try discriminate; cbn [jacobian_rows]; [split; auto|].
  cbn [map] in Q. injection Q as Qk Q.
  assert (Hg : forall a b, E true a b -> E g a b) by (intros a b X; destruct g; auto; eapply weak; eauto).
  pose proof (zero_E _ _ _ H) as HZ. pose proof (zero_all_struct s1 h1) as Z1. pose proof (zero_all_struct s2 h2) as Z2.
  rewrite <- (struct_getK _ _ k' Z2), <- (struct_getK _ _ k Z1) in Qk.
  assert (Hk : forall d, In d (con_refs (getK (zero_all s1 h1) k)) -> inS d) by (intros d; apply (e_cclosed _ _ _ HZ); apply Hi; now left).
  destruct (upd_E _ Hk _ _ HZ) as [H' V]. rewrite <- Qk in H', V.
  pose proof (proj1 (update_sd (getK (zero_all s1 h1) k) (zero_all s1 h1))) as T1. pose proof (proj1 (update_sd (getK (zero_all s2 h2) k') (zero_all s2 h2))) as T2.
  unfold mbind at 1 3 5 7. destruct (update_gradient (getK (zero_all s1 h1) k) (zero_all s1 h1)) as [g1 [[]|]], (update_gradient (getK (zero_all s2 h2) k') (zero_all s2 h2)) as [g2 [[]|]]; cbn [fst snd] in *; try discriminate; [|split; auto].
  assert (Q' : map (getK g2) ks2 = map (fun k => place_con r (getK g1 k)) ks1).
  { transitivity (map (getK h2) ks2); [apply map_ext; intros; rewrite (struct_getK _ _ _ T2); now apply struct_getK|]. rewrite Q. apply map_ext. intros x. now rewrite (struct_getK _ _ _ T1), (struct_getK _ _ _ Z1). }
  destruct (IH (fun x Hx => Hi x (or_intror Hx)) ks2 true g1 g2 H' Q') as [H2 V2]. rewrite (stored_E _ _ H').
  unfold mbind. destruct (jacobian_rows s1 ks1 g1) as [i1 [x|]], (jacobian_rows s2 ks2 g2) as [i2 [y|]]; cbn [fst snd] in *; try discriminate.
  - injection V2 as ->. split; auto.
  - split; auto.
Qed.
Lemma jac_E g : rel g (get_jacobian s1) (get_jacobian s2).
Proof. intros h1 h2 H. apply jrows_E; auto; [apply incl_refl | apply (e_cons _ _ _ H)]. Qed.
Lemma pset_E g c v : inS c -> rel g (prim_set_data c v) (prim_set_data (ren r c) v).
Proof.
  intros Hc. destruct c as [l|l|l|l]; cbn [prim_set_data ren]; [| apply rel_ret | |]; (apply rel_bind; [apply rel_assert|]); intros _ h1 h2 H; cbv zeta; cbn [fst snd]; (split; [|auto]).
  - eapply put_P; eauto; cbn [p_x p_y p_gx p_gy]; auto. intros Hg. pose proof (e_grad _ _ _ H Hg _ Hc) as G. cbn [ren prim_grad] in G. injection G as -> ->. auto.
  - eapply put_A; eauto; cbn [a_gr a_gsa a_gea]; auto. intros Hg. pose proof (e_grad _ _ _ H Hg _ Hc) as G. cbn [ren prim_grad] in G. injection G as -> -> ->. auto.
  - eapply put_C; eauto; cbn [c_gr]; auto. intros Hg. pose proof (e_grad _ _ _ H Hg _ Hc) as G. cbn [ren prim_grad] in G. injection G as ->. auto.
Qed.
Lemma plen (h : heap F) (h' : heap F) c : length (prim_data h' (ren r c)) = length (prim_data h c). Proof. destruct c; reflexivity. Qed.
Lemma setl_E g cs : incl cs (cells s1) -> forall d, rel g (set_data_loop cs d) (set_data_loop (map (ren r) cs) d).
Proof.
  induction cs as [|c cs IH]; intros Hi d; cbn [set_data_loop map]; [apply rel_ret|].
  intros h1 h2 H. cbv zeta. rewrite (plen h1 h2 c). refine (rel_bind _ _ _ _ _ _ _ h1 h2 H); [apply pset_E, Hi; now left | intros _; apply IH; intros x Hx; apply Hi; now right].
Qed.
Lemma dofs_E h1 h2 : get_n_dofs h2 s2 = get_n_dofs h1 s1.
Proof.
  unfold get_n_dofs. rewrite CE. generalize 0%nat. generalize (cells s1). intros l. induction l as [|c l IH]; intros n; cbn [map fold_left]; auto. rewrite (plen h1 h2 c). apply IH.
Qed.
Lemma set_E g d : rel g (set_data s1 d) (set_data s2 d).
Proof.
  intros h1 h2 H. unfold set_data. rewrite (dofs_E h1 h2). refine (rel_bind _ _ _ _ _ _ _ h1 h2 H); [apply rel_assert|]. intros _. rewrite CE. apply setl_E, incl_refl.
Qed.

(** ** The solvers *)
Ltac iff := match goal with |- rel _ (if ?b then _ else _) (if ?b then _ else _) => destruct b end.
Lemma lsl_E g x0 dir loss m curv n : forall alpha, rel g (ls_loop s1 x0 dir loss m curv n alpha) (ls_loop s2 x0 dir loss m curv n alpha).
Proof.
  induction n as [|n IH]; intros alpha; cbn [ls_loop]; [apply rel_ret|]. apply rel_bind; [apply set_E|]. intros _ h1 h2 H. cbv zeta. rewrite (getloss_E _ _ _ H).
  destruct (fle _ _); [|now apply IH]. refine (rel_bind _ _ _ _ _ (grad_E g) _ h1 h2 H). intros ng. iff; [apply rel_ret | apply IH].
Qed.
Lemma ls_E g dir gr : rel g (line_search_wolfe s1 dir gr) (line_search_wolfe s2 dir gr).
Proof.
  intros h1 h2 H. unfold line_search_wolfe. cbv zeta. destruct (fge _ _); [split; auto|]. rewrite (getloss_E _ _ _ H), (data_E _ _ _ H). now apply lsl_E.
Qed.
Lemma gdl_E g P n : forall it gr gn l, rel g (gd_loop s1 P n it gr gn l) (gd_loop s2 P n it gr gn l).
Proof.
  induction n as [|n IH]; intros it gr gn l; cbn [gd_loop]; [apply rel_ret|]. iff; [apply rel_ret|]. iff; [apply rel_ret|].
  intros h1 h2 H. cbv zeta. rewrite (data_E _ _ _ H). refine (rel_bind _ _ _ _ _ (ls_E g _ _) _ h1 h2 H). intros [al|e]; [|apply rel_ret].
  apply rel_bind; [apply set_E|]. clear h2 H. intros _ g1 g2 H. rewrite (getloss_E _ _ _ H). refine (rel_bind _ _ _ _ _ (grad_E g) _ g1 g2 H). intros; apply IH.
Qed.
Lemma gd_E g P : rel g (gd_run s1 P) (gd_run s2 P).
Proof. unfold gd_run. apply rel_bind; [apply grad_E|]. intros gr h1 h2 H. rewrite (getloss_E _ _ _ H). now apply gdl_E. Qed.
Lemma bfl_E g P n : forall it d hm rr, rel g (bfgs_loop s1 P n it d hm rr) (bfgs_loop s2 P n it d hm rr).
Proof.
  induction n as [|n IH]; intros it d hm rr; cbn [bfgs_loop]; [apply rel_ret|]. iff; [apply rel_ret|].
  intros h1 h2 H. rewrite (getloss_E _ _ _ H). destruct (flt _ _); [split; auto|]. refine (rel_bind _ _ _ _ _ (grad_E g) _ h1 h2 H). intros gr.
  iff; [apply rel_ret|]. iff; [apply rel_ret|]. cbv zeta. iff; [apply rel_ret|]. apply rel_bind; [apply ls_E|]. intros [al|[]]; [|apply rel_ret|].
  - apply rel_bind; [apply set_E|]. intros _. apply rel_bind; [apply grad_E|]. intros ng. apply IH.
  - iff; [apply rel_ret | apply IH].
Qed.
Lemma bf_E g P : rel g (bfgs_run s1 P) (bfgs_run s2 P).
Proof. intros h1 h2 H. unfold bfgs_run. cbv zeta. rewrite (data_E _ _ _ H). now apply bfl_E. Qed.
Lemma nll_E g pinv nm ml eps st n : forall it l, rel g (nls_loop pinv s1 nm ml eps st n it l) (nls_loop pinv s2 nm ml eps st n it l).
Proof.
  induction n as [|n IH]; intros it l; cbn [nls_loop]; [apply rel_ret|]. iff; [apply rel_ret|]. intros h1 h2 H. cbv zeta. rewrite (data_E _ _ _ H), (per_E _ _ _ H).
  refine (rel_bind _ _ _ _ _ (jac_E g) _ h1 h2 H). intros j. destruct (nls_step _ _ _ _ _ _ _); [|apply rel_ret | apply rel_panic].
  apply rel_bind; [apply set_E|]. intros _. apply IH.
Qed.
Lemma solve_E g pinv sol : rel g (solve pinv sol s1) (solve pinv sol s2).
Proof.
  destruct sol; cbn [solve]; (apply rel_bind; [|intros; apply rel_ret]); [apply gd_E | apply bf_E | apply nll_E | apply nll_E].
Qed.
End E.

Section Top.
Context {F : Type} {A : Arith F}.
Lemma to_E r (h1 h2 : heap F) s1 s2 : valid h1 s1 -> valid h2 s2 -> refs_closed h1 s1 -> same_drawing r h1 s1 h2 s2 ->
  cells s2 = map (ren r) (cells s1) /\ (forall c d, In c (cells s1) -> In d (cells s1) -> ren r c = ren r d -> c = d) /\ E r s1 s2 false h1 h2.
Proof.
  intros V1 V2 [R1 R2] (I & C & K & Rf & D). assert (Q : forall c, registered s1 c <-> In c (cells s1)) by (intros c; now apply (valid_reg h1)).
  split; [exact C|]. split; [intros c d Hc Hd; apply I; now apply Q|]. constructor; try discriminate; auto.
  - intros c Hc. now apply (v_live h1 s1 V1), Q.
  - intros c Hc. apply (v_live h2 s2 V2). apply (valid_reg h2 s2 _ V2). unfold cells. rewrite C. now apply in_map.
  - intros c Hc. now apply Rf, Q.
  - intros c Hc. now apply D, Q.
  - intros c d Hc Hd. apply Q. apply (R1 c); auto. now apply Q.
  - intros k d Hk Hd. apply Q. now apply (R2 k).
Qed.
Lemma of_E r g (h1 h2 : heap F) s1 s2 (a1 : heap F) : valid a1 s1 -> (forall c d, registered s1 c -> registered s1 d -> ren r c = ren r d -> c = d) ->
  cells s2 = map (ren r) (cells s1) -> E r s1 s2 g h1 h2 -> same_drawing r h1 s1 h2 s2.
Proof.
  intros V I C [L1 L2 K Rf D _ _ _]. repeat split; auto; intros c Hc; [apply Rf | apply D]; now apply (valid_reg a1).
Qed.
Lemma C90_solve_lemma pinv sol r (h1 h2 : heap F) s1 s2 : valid h1 s1 -> valid h2 s2 -> refs_closed h1 s1 -> same_drawing r h1 s1 h2 s2 ->
  snd (solve pinv sol s2 h2) = snd (solve pinv sol s1 h1) /\ same_drawing r (fst (solve pinv sol s1 h1)) s1 (fst (solve pinv sol s2 h2)) s2.
Proof.
  intros V1 V2 R H. destruct (to_E _ _ _ _ _ V1 V2 R H) as (C & I & HE). destruct (solve_E r s1 s2 C I false pinv sol h1 h2 HE) as [HE' V].
  split; auto. eapply of_E; eauto. apply H.
Qed.
Lemma C90_set_lemma d r (h1 h2 : heap F) s1 s2 : valid h1 s1 -> valid h2 s2 -> refs_closed h1 s1 -> same_drawing r h1 s1 h2 s2 ->
  snd (set_data s2 d h2) = snd (set_data s1 d h1) /\ same_drawing r (fst (set_data s1 d h1)) s1 (fst (set_data s2 d h2)) s2.
Proof.
  intros V1 V2 R H. destruct (to_E _ _ _ _ _ V1 V2 R H) as (C & I & HE). destruct (set_E r s1 s2 C I false d h1 h2 HE) as [HE' V].
  split; auto. eapply of_E; eauto. apply H.
Qed.
Lemma C90_read_lemma r (h1 h2 : heap F) s1 s2 : valid h1 s1 -> valid h2 s2 -> refs_closed h1 s1 -> same_drawing r h1 s1 h2 s2 ->
  get_data h2 s2 = get_data h1 s1 /\ get_loss h2 s2 = get_loss h1 s1 /\ get_loss_per_constraint h2 s2 = get_loss_per_constraint h1 s1 /\
  snd (get_gradient s2 h2) = snd (get_gradient s1 h1) /\ snd (get_jacobian s2 h2) = snd (get_jacobian s1 h1).
Proof.
  intros V1 V2 R H. destruct (to_E _ _ _ _ _ V1 V2 R H) as (C & I & HE).
  split; [eapply data_E; eauto|]. split; [eapply getloss_E; eauto|]. split; [eapply per_E; eauto|].
  split; [apply (grad_E r s1 s2 C I false h1 h2 HE) | apply (jac_E r s1 s2 C I false h1 h2 HE)].
Qed.
End Top.
