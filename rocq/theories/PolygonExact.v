(** * Polygons in exact arithmetic; equality laws *)
From Coq Require Import List ZArith NArith Arith Bool Lia Reals Lra Permutation Floats.SpecFloat.
From Verif Require Import Arith Vec Prim Cons Sketch Decomp Spec ArithR ArithF ExactSpec DecompSpec ExactLemmas DecompLemmas
  OrderLemmas WalkLemmas PolygonLemmas ExactDecomp.
Import ListNotations.

Lemma eq_laws_R : @eq_laws xR _.
Proof.
  intros a b c. destruct a as [a| | |], b as [b| | |], c as [c| | |]; simpl; unfold Reqb; repeat (destruct (Req_EM_T _ _)); split; intros; try discriminate; auto; congruence.
Qed.
Lemma eq_laws_F (L : libm) : @eq_laws spec_float (ArithF L).
Proof.
  assert (K : forall a b, SFeqb a b = true <-> (a <> S754_nan /\ b <> S754_nan /\ key a = key b)).
  { intros a b. destruct (match a with S754_nan => true | _ => false end) eqn:Na.
    { destruct a; try discriminate. unfold SFeqb. simpl. split; [discriminate | tauto]. }
    destruct (match b with S754_nan => true | _ => false end) eqn:Nb.
    { destruct b; try discriminate. unfold SFeqb. split; [destruct a as [[]|[]| |[] ? ?]; discriminate | tauto]. }
    assert (Ha : a <> S754_nan) by (intros ->; discriminate). assert (Hb : b <> S754_nan) by (intros ->; discriminate).
    pose proof (SFcompare_key a b Ha Hb) as H. unfold SFeqb. destruct (SFcompare a b) as [[| |]|]; try tauto; split; intros Q; try discriminate; try tauto;
      destruct Q as (_ & _ & Q); rewrite Q in H; unfold klt in H; lia. }
  intros a b c. cbn [feq ArithF]. change (feq a b) with (SFeqb a b). rewrite !K. split; intuition congruence.
Qed.

(** ** The other orientation *)
Section Rev.
Context {F : Type} {A : Arith F}.
Hypothesis EQ : eq_laws.
Lemma follows_rev (f : nat -> nat) w i j : follows (rev (map f w)) i j -> exists i' j', i = f i' /\ j = f j' /\ follows w j' i'.
Proof.
  intros [(a & b & E)|(a & E)].
  - assert (E2 : map f w = rev b ++ j :: i :: rev a).
    { rewrite <- (rev_involutive (map f w)), E, rev_app_distr. simpl. now rewrite <- !app_assoc. }
    apply map_eq_app in E2 as (x & y & -> & Ex & Ey). destruct y as [|j' [|i' y]]; simpl in Ey; try discriminate. injection Ey as <- <- Ey.
    exists i', j'. repeat split; auto. left. exists x, y. reflexivity.
  - assert (E2 : map f w = i :: rev a ++ [j]) by (rewrite <- (rev_involutive (map f w)), E; simpl; rewrite rev_app_distr; reflexivity).
    destruct w as [|i' w]; simpl in E2; [discriminate|]. injection E2 as <- E2. apply map_eq_app in E2 as (x & y & -> & Ex & Ey).
    destruct y as [|j' [|? y]]; simpl in Ey; try discriminate. injection Ey as <-. exists i', j'. repeat split; auto. right. exists x. reflexivity.
Qed.
Lemma follows_fun w i j k : NoDup w -> 3 <= length w -> follows w i k -> follows w j k -> i = j.
Proof.
  intros N L Hi Hj.
  assert (G : forall (a b a' b' : list nat), a ++ i :: k :: b = a' ++ j :: k :: b' -> NoDup (a ++ i :: k :: b) -> i = j).
  { clear. induction a as [|x a IH]; intros b [|y a'] b' E N; simpl in *.
    - now injection E.
    - exfalso. injection E as -> E. apply NoDup_cons_iff in N as [_ N]. apply NoDup_cons_iff in N as [N _]. destruct a' as [|z a']; simpl in E.
      + injection E as -> ->. apply N. now left.
      + injection E as -> ->. apply N. apply in_or_app. right. right. now left.
    - exfalso. injection E as -> E. apply NoDup_cons_iff in N as [_ N]. rewrite E in N. apply NoDup_cons_iff in N as [N _]. destruct a as [|z a]; simpl in E.
      + injection E as -> <-. apply N. now left.
      + injection E as -> <-. apply N. apply in_or_app. right. right. now left.
    - injection E as -> E. inversion N; subst. eapply IH; eauto. }
  assert (G2 : forall a b c, w = a ++ i :: k :: b \/ w = a ++ j :: k :: b -> w = k :: c -> False).
  { intros a b c [E|E] E2; rewrite E2 in E; destruct a as [|x a]; simpl in E; injection E as -> E;
    (rewrite E2 in N; inversion N; subst; apply H1; try (now left); apply in_or_app; right; right; now left). }
  destruct Hi as [(a & b & E)|(a & E)], Hj as [(a' & b' & E')|(a' & E')].
  - eapply (G a b a' b'); [congruence | rewrite <- E; auto].
  - exfalso. eapply G2; eauto.
  - exfalso. eapply G2; eauto.
  - rewrite E in E'. injection E' as E'. apply app_inj_tail in E'. tauto.
Qed.
Lemma polygon_reverse h s w : isolated_polygon (F:=F) h s w -> isolated_polygon h s (rev (map (opposite (length (forward h s))) w)).
Proof.
  intros IP. set (n := length (forward h s)). pose proof (ip_size _ _ _ IP) as L. pose proof (ip_nodup _ _ _ IP) as N.
  assert (B : forall i, In i w -> i < n + n) by (intros i Hi; destruct (ip_lines _ _ _ IP i Hi) as (l & Hl & _); eapply D_lt; eauto).
  assert (Ir : forall i, In i (rev (map (opposite n) w)) <-> exists i', i = opposite n i' /\ In i' w).
  { intros i. rewrite <- in_rev, in_map_iff. split; intros (x & H1 & H2); eauto. }
  assert (O : forall i g, In i w -> nth_error (directed h s) (opposite n i) = Some g -> exists l, nth_error (directed h s) i = Some (SLine l) /\ seg_eq h (SLine l) (SLine l) = true /\ g = seg_reverse (SLine l)).
  { intros i g Hi Hg. destruct (ip_lines _ _ _ IP i Hi) as (l & Hl & Rl). exists l. split; auto. split; auto.
    destruct (opp_nth h s i _ Hl) as (g' & Hg' & _ & _ & R). fold n in Hg'. rewrite Hg in Hg'. injection Hg' as <-. destruct R as [->|R]; [reflexivity | now apply rev_line]. }
  assert (Nx : forall i, In i w -> exists j, follows w i j).
  { intros i Hi. destruct (in_split _ _ Hi) as (a & b & E). destruct b as [|y b].
    - destruct a as [|x a]; [rewrite E in L; simpl in L; lia|]. exists x. right. exists a. exact E.
    - exists y. left. exists a, b. exact E. }
  constructor.
  - now rewrite rev_length, map_length.
  - apply NoDup_rev. clear - B N. induction w as [|x v IH]; simpl; constructor.
    + intros Hx. apply in_map_iff in Hx as (y & E & Hy). inversion N; subst. apply H1. rewrite <- (opp_inv n x), <- E, opp_inv; auto; apply B; simpl; auto.
    + inversion N; subst. apply IH; auto. intros; apply B; now right.
  - intros i Hi. apply Ir in Hi as (i' & -> & Hi). destruct (ip_lines _ _ _ IP i' Hi) as (l & Hl & Rl).
    destruct (opp_nth h s i' _ Hl) as (g' & Hg' & _). fold n in Hg'. destruct (O i' g' Hi Hg') as (l2 & Hl2 & Rl2 & ->).
    exists (mkLine (l_end l2) (l_start l2)). split; auto. simpl in *. unfold line_eq in *. simpl. now rewrite andb_comm.
  - intros i j g g' Hf Hg Hg'. apply follows_rev in Hf as (i' & j' & -> & -> & Hf). destruct (follows_in _ _ _ Hf) as [Wj Wi].
    destruct (O i' g Wi Hg) as (l & Hl & _ & ->). destruct (O j' g' Wj Hg') as (m & Hm & _ & ->).
    apply (v2_sym EQ). exact (ip_closed _ _ _ IP j' i' _ _ Hf Hm Hl).
  - intros i j g g' Hi Hj Hg Hg' E. apply Ir in Hi as (i' & -> & Hi). apply Ir in Hj as (j' & -> & Hj). f_equal.
    destruct (O i' g Hi Hg) as (l & Hl & _ & ->). destruct (O j' g' Hj Hg') as (m & Hm & _ & ->).
    destruct (Nx i' Hi) as [a Ha]. destruct (Nx j' Hj) as [b Hb]. destruct (follows_in _ _ _ Ha) as [_ Wa]. destruct (follows_in _ _ _ Hb) as [_ Wb].
    destruct (ip_lines _ _ _ IP a Wa) as (la & Hla & _). destruct (ip_lines _ _ _ IP b Wb) as (lb & Hlb & _).
    assert (a = b); [|subst; eapply follows_fun; eauto].
    eapply (ip_corners _ _ _ IP a b); eauto. apply (v2_trans EQ) with (get_end h (SLine l)); [apply (v2_sym EQ); eapply (ip_closed _ _ _ IP i' a); eauto|].
    apply (v2_trans EQ) with (get_end h (SLine m)); [exact E|]. eapply (ip_closed _ _ _ IP j' b); eauto.
  - intros i j m g g' Hf Hm Hj E. apply follows_rev in Hf as (i' & j' & -> & -> & Hf). destruct (follows_in _ _ _ Hf) as [Wj Wi].
    destruct (O j' g' Wj Hj) as (l & Hl & _ & ->). destruct (ip_lines _ _ _ IP i' Wi) as (li & Hli & _). fold n. rewrite opp_inv by auto.
    assert (E2 : v2eq (get_start h g) (get_start h (SLine li)) = true).
    { apply (v2_trans EQ) with (get_end h (SLine l)); [exact E|]. eapply (ip_closed _ _ _ IP j' i'); eauto. }
    destruct (ip_alone _ _ _ IP j' i' m _ _ Hf Hm Hli E2); auto.
Qed.
End Rev.

(** ** Exact arithmetic *)
Lemma at_app {F} (D : list (seg F)) a b : at_positions D (a ++ b) = at_positions D a ++ at_positions D b.
Proof. unfold at_positions. apply flat_map_app. Qed.
Lemma at_in {F} (D : list (seg F)) w g : In g (at_positions D w) -> In g D.
Proof. unfold at_positions. intros H. apply in_flat_map in H as (i & _ & H). destruct (nth_error D i) eqn:E; [|destruct H]. destruct H as [<-|[]]. eapply nth_error_In; eauto. Qed.
Lemma at_fin h s : valid h s -> geo_finite h s -> forall w, Forall (seg_fin h) (at_positions (directed h s) w).
Proof. intros V G w. apply Forall_forall. intros g Hg. eapply directed_fin; eauto. eapply at_in; eauto. Qed.
Lemma shoelace_opposite h s w : isolated_polygon h s w ->
  shoelace h (at_positions (directed h s) (rev (map (opposite (length (forward h s))) w))) = (- shoelace h (at_positions (directed h s) w))%R.
Proof.
  intros IP. rewrite <- shoelace_reverse. assert (G : forall v, (forall i, In i v -> In i w) ->
    shoelace h (at_positions (directed h s) (rev (map (opposite (length (forward h s))) v))) = shoelace h (ring_reverse (at_positions (directed h s) v))).
  { induction v as [|i v IH]; intros Hv; [reflexivity|]. simpl map. simpl rev. rewrite at_app, !shoelace_sum, sumR_app in *.
    destruct (ip_lines _ _ _ IP i (Hv i (or_introl eq_refl))) as (l & Hl & _). destruct (opp_nth h s i _ Hl) as (g & Hg & E1 & E2 & _).
    assert (Ei : at_positions (directed h s) (i :: v) = SLine l :: at_positions (directed h s) v) by (unfold at_positions; simpl; now rewrite Hl).
    assert (Eo : at_positions (directed h s) [opposite (length (forward h s)) i] = [g]) by (unfold at_positions; simpl; now rewrite Hg).
    rewrite Ei, Eo. unfold ring_reverse in *. simpl rev. rewrite map_app, sumR_app.
    assert (IHv := IH (fun i Hi => Hv i (or_intror Hi))). clear IH; cbn [map sumR fold_right at_positions] in *; cbv beta in *. assert (Ec : crossR (from_pt h g) (to_pt h g) = crossR (from_pt h (seg_reverse (SLine l))) (to_pt h (seg_reverse (SLine l)))) by (unfold from_pt, to_pt; rewrite E1, E2; reflexivity). lra. }
  now apply G.
Qed.
Lemma C45_exact h s w : valid h s -> geo_finite h s -> isolated_polygon h s w ->
  let D := directed h s in shoelace h (at_positions D w) <> 0%R ->
  exists a b, (w = a ++ b \/ rev (map (opposite (length (forward h s))) w) = a ++ b) /\
    In (RSegments (at_positions D (b ++ a))) (fst (find_rings h s)) /\
    signed_area h (RSegments (at_positions D (b ++ a))) = Fin (Rabs (shoelace h (at_positions D w))).
Proof.
  intros V G IP D Hn.
  assert (P : forall v, isolated_polygon h s v -> (0 < shoelace h (at_positions D v))%R -> exists a b, v = a ++ b /\ In (RSegments (at_positions D (b ++ a))) (fst (find_rings h s)) /\
     signed_area h (RSegments (at_positions D (b ++ a))) = Fin (shoelace h (at_positions D v))).
  { intros v IPv Hv. destruct (polygon_found eq_laws_R h s v IPv) as (a & b & E & F).
    assert (Ar : signed_area h (RSegments (at_positions D (b ++ a))) = Fin (shoelace h (at_positions D v))).
    { rewrite area_R by (apply at_fin; auto). f_equal. rewrite E, !at_app. apply shoelace_app. }
    exists a, b. split; auto. split; auto. apply F. unfold D in Ar. rewrite Ar. unfold fgt. rewrite f0_R, lt_R. unfold Rltb. fold D. destruct (Rlt_dec _ _); auto. }
  destruct (Rlt_le_dec 0 (shoelace h (at_positions D w))) as [Hp|Hp].
  - destruct (P w IP Hp) as (a & b & E & I & Ar). exists a, b. split; auto. split; auto. rewrite Ar. f_equal. rewrite Rabs_right; lra.
  - assert (E := shoelace_opposite h s w IP). fold D in E. destruct (P _ (polygon_reverse eq_laws_R h s w IP)) as (a & b & E2 & I & Ar); [unfold D in *; lra|].
    exists a, b. split; auto. split; auto. rewrite Ar. f_equal. unfold D in *. rewrite E, Rabs_left1; lra.
Qed.

(** C46: segment rings have at least three segments *)
Lemma ring_size h s l : valid h s -> geo_finite h s -> In (RSegments l) (fst (find_rings h s)) -> 3 <= length l /\ (0 < shoelace h l)%R /\ Forall (seg_fin h) l.
Proof.
  intros V G H. assert (H' := H). apply in_rings in H as [Hp [(w & used & i & g & E & Hn & W)|(c & _ & E)]]; [|discriminate]. injection E as ->.
  assert (Fl : Forall (seg_fin h) (map snd w)).
  { apply Forall_forall. intros x Hx. apply in_map_iff in Hx as ([j y] & <- & Hy). eapply directed_fin; eauto.
    assert (C := cwalk_consistent _ _ _ _ (i, g) _ Hn W). rewrite Forall_forall in C. specialize (C _ Hy). eapply nth_error_In; exact C. }
  rewrite area_R in Hp by auto. unfold fgt in Hp. rewrite f0_R, lt_R in Hp. apply Rltb_true in Hp. split; [|auto].
  destruct (le_lt_dec 3 (length (map snd w))) as [|Hs]; auto. exfalso.
  rewrite (small_ring h (map snd w)) in Hp; auto; [lra|].
  destruct (cwalk_chain _ _ _ _ _ _ W) as (C & L & t & ->). exists g, (map snd t). split; [reflexivity|]. split; auto.
Qed.
