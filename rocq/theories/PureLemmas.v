(** * Gradient evaluation does not depend on stored gradients (proofs for C17) *)
From Coq Require Import List ZArith NArith Arith Bool Lia.
From Verif Require Import Arith Vec Prim Cons Sketch Solve Api Spec
  HeapLemmas SolveLemmas BookLemmas WfLemmas DataLemmas SpecLemmas.
Import ListNotations.

Section L.
Context {F : Type} {A : Arith F}.

Lemma sd_sym (h h' : heap F) : sdeq h h' -> sdeq h' h.
Proof.
  intros [(H1&H2&H3&H4&H5&H6&H7) Hd]. split.
  - repeat split; auto; intros; try (symmetry; apply H6); symmetry; apply H7.
  - intros c Hc. symmetry. now apply Hd.
Qed.

(** same data, same structure, same gradients in the cells of [cs] *)
Definition grel (cs : list pcell) (h1 h2 : heap F) : Prop :=
  sdeq h1 h2 /\ forall c, In c cs -> prim_grad h1 c = prim_grad h2 c.
Definition same_out {T} (cs : list pcell) (m1 m2 : heap F * out T) : Prop :=
  snd m1 = snd m2 /\ grel cs (fst m1) (fst m2).

Lemma getP_eq (h1 h2 : heap F) l : sdeq h1 h2 -> p_x (getP h1 l) = p_x (getP h2 l) /\ p_y (getP h1 l) = p_y (getP h2 l).
Proof. intros [_ Hd]. specialize (Hd (PPoint l) I). simpl in Hd. now injection Hd. Qed.

Lemma grel_setP cs h1 h2 l x1 x2 :
  grel cs h1 h2 -> p_x x1 = p_x x2 -> p_y x1 = p_y x2 ->
  (In (PPoint l) cs -> p_gx x1 = p_gx x2 /\ p_gy x1 = p_gy x2) -> 
  grel cs (setP h1 l x1) (setP h2 l x2).
Proof.
  intros [Hd Hg] E1 E2 E3. pose proof Hd as [(H1&H2&H3&H4&H5&H6&H7) Hdat]. split; [split|].
  - repeat split; auto; intros; simpl; rewrite ?lset_length; auto; apply H6 || apply H7.
  - intros c _. destruct (pcell_dec c (PPoint l)) as [->|Hne].
    + simpl. rewrite !getP_setP, Nat.eqb_refl, H3. destruct (_ <? _); simpl; [now rewrite E1, E2|].
      now apply (Hdat (PPoint l)).
    + rewrite !data_setP_other by auto. now apply Hdat.
  - intros c Hc. destruct (pcell_dec c (PPoint l)) as [->|Hne].
    + simpl. rewrite !getP_setP, Nat.eqb_refl, H3. destruct (E3 Hc) as [E4 E5].
      destruct (_ <? _); simpl; [now rewrite E4, E5|]. now apply (Hg (PPoint l)).
    + rewrite !grad_setP_other by auto. now apply Hg.
Qed.
Lemma padd_rel cs l g h1 h2 : grel cs h1 h2 ->
  same_out cs (Point2_add_to_gradient l g h1) (Point2_add_to_gradient l g h2).
Proof.
  intros Hr. unfold Point2_add_to_gradient, mbind, massert. destruct (all_finite g); [|split; auto].
  cbn [mret]. split; [reflexivity|]. cbn [fst].
  destruct (getP_eq _ _ l (proj1 Hr)) as [E1 E2].
  apply grel_setP; auto. intros Hi. destruct Hr as [_ Hg]. specialize (Hg _ Hi). simpl in Hg.
  injection Hg as -> ->. auto.
Qed.
Lemma grel_setA cs (h1 h2 : heap F) l x1 x2 :
  grel cs h1 h2 -> a_center x1 = a_center (getA h1 l) -> a_center x2 = a_center (getA h2 l) ->
  a_cw x1 = a_cw (getA h1 l) -> a_cw x2 = a_cw (getA h2 l) ->
  a_radius x1 = a_radius x2 -> a_sa x1 = a_sa x2 -> a_ea x1 = a_ea x2 ->
  (In (PArc l) cs -> a_gr x1 = a_gr x2 /\ a_gsa x1 = a_gsa x2 /\ a_gea x1 = a_gea x2) -> 
  grel cs (setA h1 l x1) (setA h2 l x2).
Proof.
  intros [Hd Hg] C1 C2 W1 W2 E1 E2 E2' E3. pose proof Hd as [Hs Hdat].
  pose proof Hs as (H1&H2&H3&H4&H5&H6&H7). split; [split|].
  - destruct struct_pre as [_ T]. eapply T; [|eapply T; [exact Hs | apply struct_setA; auto]].
    assert (S := struct_setA h1 l x1 C1 W1). destruct S as (S1&S2&S3&S4&S5&S6&S7).
    repeat split; auto; intros; try (symmetry; apply S6); symmetry; apply S7.
  - intros c _. destruct (pcell_dec c (PArc l)) as [->|Hne].
    + simpl. rewrite !getA_setA, Nat.eqb_refl, H4. destruct (_ <? _); simpl; [now rewrite E1, E2, E2'|].
      now apply (Hdat (PArc l)).
    + rewrite !data_setA_other by auto. now apply Hdat.
  - intros c Hc. destruct (pcell_dec c (PArc l)) as [->|Hne].
    + simpl. rewrite !getA_setA, Nat.eqb_refl, H4. destruct (E3 Hc) as (E4 & E5 & E6).
      destruct (_ <? _); simpl; [now rewrite E4, E5, E6|]. now apply (Hg (PArc l)).
    + rewrite !grad_setA_other by auto. now apply Hg.
Qed.
Lemma same_bind {T U} cs (m1 m2 : heap F * out T) (f1 f2 : T -> M F U) :
  same_out cs m1 m2 -> (forall x h1 h2, grel cs h1 h2 -> same_out cs (f1 x h1) (f2 x h2)) ->
  same_out cs (match m1 with (h', Val x) => f1 x h' | (h', Panic) => (h', Panic) end)
              (match m2 with (h', Val x) => f2 x h' | (h', Panic) => (h', Panic) end).
Proof.
  destruct m1 as [h1 o1], m2 as [h2 o2]. intros [E G] Hf. simpl in *. subst o2.
  destruct o1; auto. split; auto.
Qed.
Lemma add_rel cs t g h1 h2 : grel cs h1 h2 -> same_out cs (add_to_gradient t g h1) (add_to_gradient t g h2).
Proof.
  intros Hr. destruct t as [l|l|a]; cbn [add_to_gradient].
  - now apply padd_rel.
  - unfold Line_add_to_gradient, mbind at 1 3, massert. destruct (all_finite g); [|split; auto]. cbn [mret].
    rewrite (struct_getL _ _ _ (proj1 (proj1 Hr))).
    apply same_bind; [now apply padd_rel|]. intros _ ? ? ?. now apply padd_rel.
  - unfold Arc_add_to_gradient, mbind at 1 3, massert. destruct (all_finite g); [|split; auto]. cbn [mret].
    pose proof Hr as [[(_&_&_&_&_&H6&_) _] _]. destruct (H6 a) as [-> _].
    apply same_bind; [now apply padd_rel|]. intros _ k1 k2 Hk. split; [reflexivity|]. cbn [fst].
    pose proof Hk as [[_ Hd] Hg]. specialize (Hd (PArc a) I). simpl in Hd. injection Hd as D1 D2 D3.
    apply grel_setA; auto; simpl; auto. intros Hi. specialize (Hg _ Hi). simpl in Hg. injection Hg as -> -> ->. auto.
Qed.
Lemma for_rel {T} cs (l : list T) (f1 f2 : T -> M F unit) :
  (forall x h1 h2, grel cs h1 h2 -> same_out cs (f1 x h1) (f2 x h2)) ->
  forall h1 h2, grel cs h1 h2 -> same_out cs (mfor l f1 h1) (mfor l f2 h2).
Proof.
  intros Hf. induction l as [|x l IH]; intros h1 h2 Hr; simpl; [split; auto|].
  unfold mbind. apply same_bind; auto.
Qed.
Lemma sdg_pdata (h1 h2 : heap F) l : sdeq h1 h2 -> pdata h2 l = pdata h1 l.
Proof. intros Hd. destruct (getP_eq _ _ l Hd) as [E1 E2]. unfold pdata, p_data. now rewrite E1, E2. Qed.
End L.

Section M.
Context {F : Type} {A : Arith F}.
Lemma sdg_rows (h h' : heap F) c : sdeq h h' -> grad_rows h' c = grad_rows h c.
Proof.
  intros Hd.
  assert (P : forall l, pdata h' l = pdata h l) by (intros; now apply sdg_pdata).
  assert (L : forall l, getL h' l = getL h l) by (intros; now apply struct_getL; destruct Hd).
  assert (S : forall l, line_start h' l = line_start h l) by (intros; unfold line_start; now rewrite P, L).
  assert (E : forall l, line_end h' l = line_end h l) by (intros; unfold line_end; now rewrite P, L).
  assert (Q : forall a, a_center (getA h' a) = a_center (getA h a) /\ a_radius (getA h' a) = a_radius (getA h a) /\
    a_sa (getA h' a) = a_sa (getA h a) /\ a_ea (getA h' a) = a_ea (getA h a)).
  { intros a. destruct Hd as [(_&_&_&_&_&Hs&_) Hd]. specialize (Hd (PArc a) I). simpl in Hd. injection Hd as E1 E2 E3.
    destruct (Hs a). auto. }
  assert (W : forall a, arc_end_point h' (getA h' a) = arc_end_point h (getA h a) /\
     arc_start_point h' (getA h' a) = arc_start_point h (getA h a) /\
     arc_end_point_gradient (getA h' a) = arc_end_point_gradient (getA h a) /\
     arc_start_point_gradient (getA h' a) = arc_start_point_gradient (getA h a)).
  { intros a. destruct (Q a) as (E0 & E1 & E2 & E3). pose proof (P (a_center (getA h a))) as X.
    unfold pdata, p_data in X. injection X as Px Py.
    unfold arc_end_point, arc_start_point, arc_end_point_gradient, arc_start_point_gradient.
    rewrite E0, E1, E2, E3, Px, Py. auto. }
  destruct c; cbn [grad_rows]; rewrite ?P, ?S, ?E; auto;
  destruct (W a) as (W1 & W2 & W3 & W4); rewrite ?W1, ?W2, ?W3, ?W4; auto.
Qed.
Lemma update_rel cs c (h1 h2 : heap F) : grel cs h1 h2 -> same_out cs (update_gradient c h1) (update_gradient c h2).
Proof.
  intros Hr. unfold update_gradient. rewrite (sdg_rows _ _ c (proj1 Hr)).
  apply for_rel; auto. intros; now apply add_rel.
Qed.

Lemma prim_zero_grad_gen h c c' : cell_ok (F:=F) h c -> prim_grad (prim_zero h c) c' = if pcell_eqb c c' then repeat f0 (dim c) else prim_grad h c'.
Proof.
  intros Hc. destruct (pcell_eqb c c') eqn:E.
  - apply pcell_eqb_eq in E; subst c'. destruct c; simpl in *; auto; apply Nat.ltb_lt in Hc;
    rewrite ?getP_setP, ?getA_setA, ?getC_setC, Nat.eqb_refl, Hc; reflexivity.
  - apply zero_grad_other. now apply pcell_eqb_neq.
Qed.
Lemma prim_zero_cell_ok h c c' : cell_ok (F:=F) h c' -> cell_ok (prim_zero h c) c'.
Proof. destruct c, c'; simpl; rewrite ?lset_length; auto. Qed.
Lemma zero_list l : forall h, (forall c, In c l -> cell_ok (F:=F) h c) ->
  (forall c, In c l -> prim_grad (fold_left prim_zero l h) c = repeat f0 (dim c)) /\
  (forall c, ~ In c l -> prim_grad (fold_left prim_zero l h) c = prim_grad h c).
Proof.
  induction l as [|x l IH]; intros h Hok; simpl; [split; [tauto|auto]|].
  destruct (IH (prim_zero h x)) as [I1 I2]; [intros; apply prim_zero_cell_ok, Hok; now right|].
  split.
  - intros c Hc. destruct (in_dec pcell_dec c l) as [Hi|Hi]; [auto|].
    destruct Hc as [<-|Hc]; [|tauto]. rewrite I2 by auto. rewrite prim_zero_grad_gen by (apply Hok; now left).
    now rewrite pcell_eqb_refl.
  - intros c Hc. rewrite I2 by tauto. apply zero_grad_other. tauto.
Qed.
Lemma cell_ok_sd (h1 h2 : heap F) c : sdeq h1 h2 -> cell_ok h1 c -> cell_ok h2 c.
Proof. intros [(E1&E2&E3&E4&E5&_) _]. destruct c; simpl in *; rewrite ?E1, ?E3, ?E4, ?E5; auto. Qed.
Lemma zero_rel s (h1 h2 : heap F) : (forall c, In c (cells s) -> cell_ok h1 c) -> sdeq h1 h2 ->
  grel (cells s) (zero_all s h1) (zero_all s h2).
Proof.
  intros Hok Hd. split.
  - eapply sd_pre; [apply sd_sym, zero_all_sd|]. eapply sd_pre; [exact Hd | apply zero_all_sd].
  - intros c Hc. destruct (zero_list (cells s) h1 Hok) as [Z1 _].
    destruct (zero_list (cells s) h2) as [Z2 _]; [intros; now apply (cell_ok_sd h1); auto|].
    unfold zero_all. now rewrite Z1, Z2.
Qed.
Lemma stored_rel s (h1 h2 : heap F) : grel (cells s) h1 h2 -> stored_gradient s h1 = stored_gradient s h2.
Proof.
  intros [_ Hg]. unfold stored_gradient. induction (cells s) as [|c l IH]; simpl; auto.
  rewrite IH by (intros; apply Hg; now right). f_equal. apply Hg. now left.
Qed.
Lemma gradient_rel s (h1 h2 : heap F) : (forall c, In c (cells s) -> cell_ok h1 c) -> sdeq h1 h2 ->
  same_out (cells s) (get_gradient s h1) (get_gradient s h2).
Proof.
  intros Hok Hd. unfold get_gradient, mbind at 1 3.
  apply same_bind.
  - apply for_rel; [|now apply zero_rel]. intros k k1 k2 Hk.
    rewrite (struct_getK _ _ _ (proj1 (proj1 Hk))). now apply update_rel.
  - intros _ k1 k2 Hk. unfold mbind, massert.
    assert (E : forallb (fun c => all_finite (prim_grad k1 c)) (cells s) = forallb (fun c => all_finite (prim_grad k2 c)) (cells s)).
    { destruct Hk as [_ Hg]. clear Hok. induction (cells s) as [|c l IH]; simpl; auto.
      rewrite IH by (auto; intros; apply Hg; now right). now rewrite (Hg c) by now left. }
    rewrite E. destruct (forallb (fun c => all_finite (prim_grad k2 c)) (cells s)); [|split; [reflexivity|exact Hk]].
    split; [|exact Hk]. simpl. f_equal. now apply stored_rel.
Qed.
Lemma jacobian_rel s (h1 h2 : heap F) : (forall c, In c (cells s) -> cell_ok h1 c) -> sdeq h1 h2 ->
  snd (get_jacobian s h1) = snd (get_jacobian s h2).
Proof.
  unfold get_jacobian. revert h1 h2. induction (s_cons s) as [|k ks IH]; intros h1 h2 Hok Hd; simpl; auto.
  pose proof (zero_rel s h1 h2 Hok Hd) as Z.
  unfold mbind at 1 3. rewrite (struct_getK _ _ _ (proj1 (proj1 Z))).
  pose proof (update_rel (cells s) (getK (zero_all s h1) k) _ _ Z) as [E G].
  pose proof (update_sd (getK (zero_all s h1) k) (zero_all s h1)) as U.
  destruct (update_gradient _ (zero_all s h1)) as [k1 o1], (update_gradient _ (zero_all s h2)) as [k2 o2].
  simpl in *. subst o2. destruct o1; auto. unfold mbind.
  assert (Hok' : forall c, In c (cells s) -> cell_ok k1 c).
  { intros c Hc. eapply cell_ok_sd; [|now apply Hok]. eapply sd_pre; [apply zero_all_sd | exact U]. }
  specialize (IH k1 k2 Hok' (proj1 G)).
  destruct (jacobian_rows s ks k1) as [j1 r1], (jacobian_rows s ks k2) as [j2 r2]. simpl in IH. subst r2.
  destruct r1; auto. simpl. f_equal. f_equal. now apply stored_rel.
Qed.

Definition same_data (h1 h2 : heap F) : Prop := forall c, prim_data h2 c = prim_data h1 c.
Lemma sdeq_iff h1 h2 : sdeq h1 h2 <-> same_structure h1 h2 /\ same_data h1 h2.
Proof. unfold sdeq. rewrite same_structure_iff. split; intros [H1 H2]; split; auto; [intros c; now apply H2 | intros c _; apply H2]. Qed.
Lemma C17_gradient_lemma h1 h2 s : valid h1 s -> same_structure h1 h2 -> same_data h1 h2 ->
  snd (get_gradient s h1) = snd (get_gradient s h2) /\ snd (get_jacobian s h1) = snd (get_jacobian s h2).
Proof.
  intros Hv H1 H2. assert (Hd : sdeq h1 h2) by (apply sdeq_iff; auto).
  assert (Hok : forall c, In c (cells s) -> cell_ok h1 c) by (intros c Hc; apply (v_live _ _ Hv); now apply (valid_reg _ _ _ Hv)).
  split; [apply gradient_rel | apply jacobian_rel]; auto.
Qed.
Lemma C17_effect_lemma h s :
  let h1 := fst (get_gradient s h) in let h2 := fst (get_jacobian s h) in
  same_structure h h1 /\ same_data h h1 /\ same_structure h h2 /\ same_data h h2.
Proof.
  intros h1 h2.
  destruct (proj1 (sdeq_iff _ _) (get_gradient_sd s h)), (proj1 (sdeq_iff _ _) (get_jacobian_sd s h)). auto.
Qed.
Lemma C17_twice_lemma h s : valid h s ->
  snd (get_gradient s (fst (get_gradient s h))) = snd (get_gradient s h) /\
  snd (get_jacobian s (fst (get_jacobian s h))) = snd (get_jacobian s h).
Proof.
  intros Hv. destruct (C17_effect_lemma h s) as (H1 & H2 & H3 & H4). split; symmetry.
  - now apply (C17_gradient_lemma _ _ _ Hv H1 H2).
  - now apply (C17_gradient_lemma _ _ _ Hv H3 H4).
Qed.
End M.
