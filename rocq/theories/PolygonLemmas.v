(** * Isolated polygons are found *)
From Coq Require Import List ZArith NArith Arith Bool Lia Permutation.
From Verif Require Import Arith Vec Prim Cons Sketch Decomp Spec DecompSpec DecompLemmas.
Import ListNotations.

Section PL.
Context {F : Type} {A : Arith F}.
Hypothesis EQ : eq_laws.
Lemma v2_sym (a b : F * F) : v2eq a b = true -> v2eq b a = true.
Proof. unfold v2eq. rewrite !andb_true_iff. intros [H1 H2]. destruct (EQ (fst a) (fst b) (fst b)), (EQ (snd a) (snd b) (snd b)). auto. Qed.
Lemma v2_trans (a b c : F * F) : v2eq a b = true -> v2eq b c = true -> v2eq a c = true.
Proof.
  unfold v2eq. rewrite !andb_true_iff. intros [H1 H2] [H3 H4].
  split; [destruct (EQ (fst a) (fst b) (fst c)) as [_ X] | destruct (EQ (snd a) (snd b) (snd c)) as [_ X]]; auto.
Qed.
Lemma seg_eq_ends h (a b : seg F) : match a, b with SLine _, SLine _ => True | _, _ => False end -> seg_eq h a b = true ->
  v2eq (get_start h a) (get_start h b) = true /\ v2eq (get_end h a) (get_end h b) = true.
Proof.
  destruct a as [l|], b as [m|]; try tauto. intros _. simpl. unfold line_eq, point_eq, v2eq, pdata, p_data. simpl.
  rewrite !andb_true_iff. tauto.
Qed.
Lemma follows_rot1 z (l : list nat) i j : follows (z :: l) i j -> follows (l ++ [z]) i j.
Proof.
  intros [(x & y & E)|(x & E)].
  - destruct x as [|c x]; simpl in E; injection E as -> ->; [right; exists y; reflexivity|]. left. exists x, (y ++ [c]). rewrite <- app_assoc. reflexivity.
  - injection E as -> ->. left. exists x, []. rewrite <- app_assoc. reflexivity.
Qed.
Lemma follows_rot (b : list nat) : forall a i j, follows (b ++ a) i j -> follows (a ++ b) i j.
Proof.
  induction b as [|z b IH]; intros a i j H; [now rewrite app_nil_r|]. simpl in H. apply follows_rot1 in H. rewrite <- app_assoc in H.
  apply IH in H. rewrite <- app_assoc in H. exact H.
Qed.
Lemma follows_in w i j : follows w i j -> In i w /\ In j w.
Proof.
  intros [(a & b & ->)|(a & ->)]; split; rewrite ?in_app_iff; simpl; rewrite ?in_app_iff; simpl; auto.
Qed.
Lemma follows_pred w j : 3 <= length w -> In j w -> exists i, follows w i j.
Proof.
  intros L H. apply in_split in H as (a & b & ->). destruct a as [|x a] using rev_ind.
  - destruct b as [|y b] using rev_ind; [simpl in L; lia|]. exists y. right. exists b. reflexivity.
  - exists x. left. exists a, b. rewrite <- app_assoc. reflexivity.
Qed.
Lemma opp_nth h s k g : nth_error (directed h s) k = Some g -> exists g', nth_error (directed h s) (opposite (length (forward h s)) k) = Some g' /\
  get_start h g' = get_end h g /\ get_end h g' = get_start h g /\ (g' = seg_reverse g \/ g = seg_reverse g').
Proof.
  intros H. unfold directed, opposite in *. destruct (Nat.ltb_spec k (length (forward h s))) as [Hk|Hk].
  - rewrite nth_error_app1 in H by auto. exists (seg_reverse g). rewrite nth_error_app2 by lia. replace (k + length (forward h s) - length (forward h s)) with k by lia.
    rewrite nth_error_map, H. split; auto. destruct g; auto.
  - rewrite nth_error_app2 in H by auto. rewrite nth_error_map in H. destruct (nth_error (forward h s) (k - length (forward h s))) as [g'|] eqn:E; [|discriminate].
    injection H as <-. exists g'. rewrite nth_error_app1 by (apply nth_error_Some; congruence). split; auto. destruct g'; auto.
Qed.
Lemma opp_inv n k : k < n + n -> opposite n (opposite n k) = k.
Proof. unfold opposite. intros H. destruct (Nat.ltb_spec k n); [destruct (Nat.ltb_spec (k + n) n) | destruct (Nat.ltb_spec (k - n) n)]; lia. Qed.
Lemma opp_ne n k : k < n + n -> opposite n k <> k.
Proof. unfold opposite. intros H. destruct (Nat.ltb_spec k n); lia. Qed.
Lemma directed_length h s : length (directed (F:=F) h s) = length (forward h s) + length (forward h s).
Proof. unfold directed. now rewrite app_length, map_length. Qed.
Lemma rev_line (g : seg F) l : seg_reverse g = SLine l -> g = seg_reverse (SLine l).
Proof. destruct g as [m|a]; simpl; [|discriminate]. intros [= <-]. destruct m; reflexivity. Qed.

Lemma at_positions_map0 (D : list (seg F)) w : Forall (consistent D) w -> at_positions D (map fst w) = map snd w.
Proof.
  unfold at_positions. induction 1 as [|[i g] w H _ IH]; simpl; auto. unfold consistent in H. simpl in H. rewrite H. simpl. now rewrite IH.
Qed.
Section Poly.
Variables (h : heap F) (s : sketch) (w : list nat).
Hypothesis IP : isolated_polygon h s w.
Let D := directed h s.
Let n := length (forward h s).
Lemma D_lt k g : nth_error D k = Some g -> k < n + n.
Proof. intros H. unfold n. rewrite <- directed_length. apply nth_error_Some. unfold D in H. congruence. Qed.
(** a walk outside the polygon does not enter it *)
Lemma no_entry used k g j g' : nth_error D k = Some g -> ~ In k w -> cand h D used g j g' -> ~ In j w.
Proof.
  intros Hk Nk (Hj & _ & Hc & He) Hw. destruct (follows_pred w j (ip_size _ _ _ IP) Hw) as [i Hf].
  destruct (opp_nth h s k g Hk) as (g2 & H2 & E2 & _ & R2). unfold continues in Hc. rewrite <- E2 in Hc.
  destruct (ip_alone _ _ _ IP i j _ _ _ Hf H2 Hj Hc) as [E|E].
  - fold n in E, H2. rewrite E in H2. unfold D in Hj. rewrite Hj in H2. injection H2 as <-.
    destruct (ip_lines _ _ _ IP j Hw) as (l & Hl & Hr). rewrite Hj in Hl. injection Hl as ->.
    unfold equals_or_reverse_equals, reverse_equals in He. apply orb_false_iff in He as [_ He].
    destruct R2 as [R2|R2]; [rewrite <- R2 in He; congruence|]. rewrite R2 in He. destruct l; simpl in *. congruence.
  - fold n in E. assert (k = i); [|subst; destruct (follows_in _ _ _ Hf); contradiction].
    destruct (follows_in _ _ _ Hf) as [Hi _]. destruct (ip_lines _ _ _ IP i Hi) as (l & Hl & _).
    rewrite <- (opp_inv n k), <- (opp_inv n i), E; auto; eapply D_lt; eauto.
Qed.
Lemma walk_outside used p0 c w' : consistent D c -> ~ In (fst c) w -> cwalk h D used p0 c w' -> Forall (fun x => ~ In (fst x) w) w'.
Proof.
  intros C N W. induction W as [c E|c d w' E En W IH]; constructor; auto. destruct c as [k g], d as [j g']. apply next_cand in En.
  apply IH; [exact (proj1 En)|]. simpl. eapply no_entry; eauto.
Qed.
(** inside, each segment is followed by the next edge *)
Lemma next_edge used i j g : (forall k, In k used -> ~ In k w) -> follows w i j -> nth_error D i = Some g ->
  exists g', nth_error D j = Some g' /\ find_next_segment h D g used = Some (j, g').
Proof.
  intros U Hf Hi. destruct (follows_in _ _ _ Hf) as [Wi Wj]. destruct (ip_lines _ _ _ IP i Wi) as (l & Hl & Rl). destruct (ip_lines _ _ _ IP j Wj) as (m & Hm & Rm).
  fold D in Hl, Hm. rewrite Hi in Hl. injection Hl as ->. exists (SLine m). split; auto.
  assert (Cj : cand h D used (SLine l) j (SLine m)).
  { split; [auto|]. split; [intros Hu; exact (U _ Hu Wj)|]. split; [apply (ip_closed _ _ _ IP i j); auto|].
    unfold equals_or_reverse_equals, reverse_equals. apply orb_false_iff.
    assert (Hne : i <> j).
    { intros <-. destruct Hf as [(a & b & E)|(a & E)].
      - pose proof (ip_nodup _ _ _ IP) as ND. rewrite E in ND. apply NoDup_remove_2 in ND. apply ND. apply in_or_app. right. now left.
      - pose proof (ip_nodup _ _ _ IP) as ND. rewrite E in ND. inversion ND; subst. apply H1. apply in_or_app. right. now left. }
    split; apply not_true_iff_false; intros E; (apply seg_eq_ends in E as [E1 E2]; [|exact I]).
    - apply Hne. symmetry. eapply (ip_corners _ _ _ IP); eauto.
    - simpl seg_reverse in E1, E2. (* the edge after j ends where i starts *)
      assert (exists k, follows w j k) as [k Hk].
      { destruct Hf as [(a & b & E)|(a & E)].
        - destruct b as [|y b]; [|exists y; left; exists (a ++ [i]), b; rewrite <- app_assoc; exact E].
          destruct a as [|x a]; [pose proof (ip_size _ _ _ IP) as L; rewrite E in L; simpl in L; lia|]. exists x. right. exists (a ++ [i]). rewrite E, <- !app_assoc. reflexivity.
        - destruct a as [|x a]; [pose proof (ip_size _ _ _ IP) as L; rewrite E in L; simpl in L; lia|]. exists x. left. exists [], (a ++ [i]). exact E. }
      destruct (follows_in _ _ _ Hk) as [_ Wk]. destruct (ip_lines _ _ _ IP k Wk) as (q & Hq & _).
      assert (Ek : i = k).
      { eapply (ip_corners _ _ _ IP i k); eauto. eapply v2_trans; [|eapply (ip_closed _ _ _ IP j k); eauto]. apply v2_sym. exact E2. }
      subst k. clear - Hf Hk IP Hne. pose proof (ip_size _ _ _ IP) as L. pose proof (ip_nodup _ _ _ IP) as ND.
      assert (G : forall v a b a' b' : list nat, NoDup v -> v = a ++ i :: j :: b -> v = a' ++ j :: i :: b' -> False).
      { clear. intros v a b a' b' N E1 E2. revert a a' N E1 E2. induction v as [|x v IH]; intros [|c a] [|c' a'] N E1 E2; simpl in *; try discriminate.
        - injection E1 as -> ->. injection E2 as E2 E3. subst. inversion N; subst. apply H1. now left.
        - injection E1 as -> ->. injection E2 as <- E2. inversion N; subst. apply H1. rewrite E2. apply in_or_app. right. right. now left.


        - injection E2 as -> ->. injection E1 as <- E1. inversion N; subst. apply H1. rewrite E1. apply in_or_app. right. right. now left.


        - injection E1 as -> E1. injection E2 as <- E2. inversion N; subst. eapply IH; eauto. }
      destruct Hf as [(a & b & E1)|(a & E1)], Hk as [(a' & b' & E2)|(a' & E2)].
      + eapply G; eauto.
      + rewrite E2 in E1. rewrite E2 in ND. rewrite E2 in L. apply NoDup_cons_iff in ND as [N1 N2]. destruct a as [|x a]; simpl in E1.
        * injection E1 as E1. destruct a' as [|y a']; simpl in E1; [simpl in L; lia|]. injection E1 as -> E1.
          simpl in N2. apply NoDup_cons_iff in N2 as [N2 _]. apply N2. apply in_or_app. right. now left.
        * injection E1 as <- E1. apply N1. rewrite E1. apply in_or_app. right. now left.
      + rewrite E1 in E2. rewrite E1 in ND. rewrite E1 in L. apply NoDup_cons_iff in ND as [N1 N2]. destruct a' as [|x a']; simpl in E2.
        * injection E2 as E2. destruct a as [|y a]; simpl in E2; [simpl in L; lia|]. injection E2 as -> E2.
          simpl in N2. apply NoDup_cons_iff in N2 as [N2 _]. apply N2. apply in_or_app. right. now left.
        * injection E2 as <- E2. apply N1. rewrite E2. apply in_or_app. right. now left.
      + rewrite E2 in E1. injection E1 as E1 _. congruence. }
  destruct (find_next_segment h D (SLine l) used) as [[k g]|] eqn:En.
  - assert (Ck := next_cand _ _ _ _ _ _ En). destruct Ck as (Hk & _ & Hc & He). 
    assert (v2eq (get_start h g) (get_start h (SLine m)) = true).
    { apply v2_trans with (get_end h (SLine l)); [now apply v2_sym|]. apply (ip_closed _ _ _ IP i j); auto. }
    destruct (ip_alone _ _ _ IP i j k _ _ Hf Hk Hm H) as [->|E]; [rewrite Hk in Hm; now injection Hm as ->|]. exfalso.
    destruct (opp_nth h s i (SLine l) Hi) as (g2 & H2 & _ & _ & R2). fold n in E, H2. rewrite <- E in H2. fold D in H2. rewrite Hk in H2. injection H2 as <-.
    unfold equals_or_reverse_equals, reverse_equals in He. apply orb_false_iff in He as [_ He].
    assert (Eg : g = seg_reverse (SLine l)) by (destruct R2 as [->|R2]; [reflexivity | now apply rev_line]).
    rewrite Eg in He. simpl in He, Rl. unfold line_eq in He, Rl. simpl in He. rewrite andb_comm in Rl. congruence.
  - exfalso. destruct (next_none h D (SLine l) used) as [X _]. exact (X En _ _ Cj).
Qed.
(** the walk around the polygon from any of its edges *)
Lemma around used a i b : w = a ++ i :: b -> (forall k, In k used -> ~ In k w) ->
  forall g, nth_error D i = Some g -> exists ww, cwalk h D used (get_start h g) (i, g) ww /\ map fst ww = i :: b ++ a.
Proof.
  intros Ew U g Hg. set (w' := i :: b ++ a).
  assert (Fw : forall x y, follows w' x y -> follows w x y).
  { intros x y H. rewrite Ew. change (follows ((i :: b) ++ a) x y) in H. now apply follows_rot. }
  assert (Nw : NoDup w').
  { pose proof (ip_nodup _ _ _ IP) as ND. rewrite Ew in ND. unfold w'. apply (Permutation_NoDup (l := a ++ i :: b)); auto. change (i :: b ++ a) with ((i :: b) ++ a). apply Permutation_app_comm. }
  assert (Iw : forall x, In x w' -> In x w).
  { intros x Hx. rewrite Ew. apply (Permutation_in (l := w') (l' := a ++ i :: b)); auto. apply (Permutation_app_comm (i :: b) a). }
  assert (G : forall rest pre x gx, w' = pre ++ x :: rest -> nth_error D x = Some gx -> exists ww, cwalk h D used (get_start h g) (x, gx) ww /\ map fst ww = x :: rest).
  { induction rest as [|y rest IH]; intros pre x gx E Hx.
    - exists [(x, gx)]. split; auto. constructor. simpl. assert (Hf : follows w' x i).
      { destruct pre as [|z pre]; [|right; exists pre; unfold w' in E |- *; rewrite E; injection E as -> E; reflexivity].
        exfalso. unfold w' in E. injection E as -> E. assert (L := f_equal (@length nat) E). rewrite app_length in L. simpl in L.
        pose proof (ip_size _ _ _ IP) as Lw. rewrite Ew, app_length in Lw. simpl in Lw. lia. }
      eapply (ip_closed _ _ _ IP x i); eauto.
    - assert (Hf : follows w x y) by (apply Fw; left; exists pre, rest; exact E).
      destruct (next_edge used x y gx U Hf Hx) as (gy & Hy & En).
      destruct (IH (pre ++ [x]) y gy) as (ww & W & M); [rewrite <- app_assoc; exact E | exact Hy|].
      exists ((x, gx) :: ww). split; [|simpl; now rewrite M]. econstructor; eauto. simpl.
      apply not_true_iff_false. intros Ec. assert (y = i).
      { eapply (ip_corners _ _ _ IP y i gy g); eauto.
        - apply Iw. rewrite E. apply in_or_app. right. right. now left.
        - apply Iw. now left.
        - apply v2_trans with (get_end h gx); auto. apply v2_sym. eapply (ip_closed _ _ _ IP x y); eauto. }
      subst y. rewrite E in Nw. destruct pre as [|z pre].
      + unfold w' in E. injection E as -> E. inversion Nw; subst. apply H1. now left.
      + unfold w' in E. injection E as -> E. inversion Nw; subst. apply H1. apply in_or_app. right. right. now left. }
  apply (G (b ++ a) [] i g eq_refl Hg).
Qed.
Lemma poly_small : length w < length D.
Proof.
  (* the opposites of the edges are further positions *)
  assert (N : NoDup (w ++ map (opposite n) w)).
  { apply NoDup_app2.
    - apply (ip_nodup _ _ _ IP).
    - assert (B : forall i, In i w -> i < n + n) by (intros i Hi; destruct (ip_lines _ _ _ IP i Hi) as (l & Hl & _); eapply D_lt; eauto).
      pose proof (ip_nodup _ _ _ IP) as ND. clear - B ND EQ. induction w as [|x v IH]; simpl; constructor.
      + intros Hx. apply in_map_iff in Hx as (y & E & Hy). inversion ND; subst. apply H1. rewrite <- (opp_inv n x), <- E, opp_inv; auto; apply B; simpl; auto.
      + inversion ND; subst. apply IH; auto. intros; apply B; now right.
    - intros k Hk Hw. apply in_map_iff in Hk as (i & <- & Hi). destruct (ip_lines _ _ _ IP i Hi) as (l & Hl & Rl).
      destruct (opp_nth h s i _ Hl) as (g' & Hg' & E1 & E2 & _). fold n in Hg'.
      (* the corner where i ends starts both the next edge and the opposite of i *)
      assert (exists j, follows w i j) as [j Hj].
      { destruct (in_split _ _ Hi) as (a & b & E). destruct b as [|y b].
        - destruct a as [|x a]; [pose proof (ip_size _ _ _ IP) as L; rewrite E in L; simpl in L; lia|]. exists x. right. exists a. exact E.
        - exists y. left. exists a, b. exact E. }
      destruct (follows_in _ _ _ Hj) as [_ Wj]. destruct (ip_lines _ _ _ IP j Wj) as (m & Hm & _).
      assert (v2eq (get_start h g') (get_start h (SLine m)) = true) by (rewrite E1; eapply (ip_closed _ _ _ IP i j); eauto).
      assert (Eo : opposite n i = j) by (eapply (ip_corners _ _ _ IP); eauto).
      (* so j is the reverse of i: impossible *)
      destruct (next_edge [] i j (SLine l) ltac:(intros ? []) Hj Hl) as (gj & Hgj & En). apply next_cand in En as (_ & _ & _ & He).
      rewrite <- Eo in Hgj. fold D in Hg'. rewrite Hg' in Hgj. injection Hgj as <-.
      unfold equals_or_reverse_equals, reverse_equals in He. apply orb_false_iff in He as [_ He].
      destruct (opp_nth h s i _ Hl) as (g3 & Hg3 & _ & _ & R3). fold n D in Hg3. rewrite Hg' in Hg3. injection Hg3 as <-.
      assert (Eg : g' = seg_reverse (SLine l)) by (destruct R3 as [->|R3]; [reflexivity | now apply rev_line]).
      rewrite Eg in He. simpl in He, Rl. unfold line_eq in He, Rl. simpl in He. rewrite andb_comm in Rl. congruence. }
  assert (I : incl (w ++ map (opposite n) w) (seq 0 (length D))).
  { intros k Hk. apply in_seq. assert (X : exists g, nth_error D k = Some g).
    { apply in_app_or in Hk as [Hk|Hk].
      - destruct (ip_lines _ _ _ IP k Hk) as (l & Hl & _). eauto.
      - apply in_map_iff in Hk as (i & <- & Hi). destruct (ip_lines _ _ _ IP i Hi) as (l & Hl & _). destruct (opp_nth h s i _ Hl) as (g' & Hg' & _). eauto. }
    destruct X as [g Hg]. assert (k < length D) by (apply nth_error_Some; congruence). lia. }
  pose proof (NoDup_incl_length N I) as L. rewrite app_length, map_length, seq_length in L. pose proof (ip_size _ _ _ IP). lia.
Qed.
Lemma polygon_walked done ws : greedy h D done ws ->
  ((forall k, In k done -> ~ In k w) /\ (forall k, In k (map fst (concat ws)) -> ~ In k w)) \/
  exists ww a b, In ww ws /\ w = a ++ b /\ map fst ww = b ++ a.
Proof.
  induction 1 as [|done ws i Gr IH Hi|done ws i g Gr IH Hu Hn Hd|done ws i g ww Gr IH Hu Hn W L].
  - left. simpl. tauto.
  - destruct IH as [[H1 H2]|IH]; [left|right; exact IH]. split; auto. intros k Hk. apply in_app_or in Hk as [Hk|[<-|[]]]; auto.
  - destruct IH as [[H1 H2]|IH]; [|right; exact IH]. left. split; auto. intros k Hk. apply in_app_or in Hk as [Hk|[<-|[]]]; auto. intros Hw.
    destruct (in_split _ _ Hw) as (a & b & Ew). destruct (around (map fst (concat ws)) a i b Ew H2 g Hn) as (ww & W & M).
    apply Hd in W. assert (Lw := f_equal (@length nat) M). rewrite map_length in Lw. simpl in Lw. rewrite app_length in Lw. pose proof poly_small as S.
    assert (Lw2 := f_equal (@length nat) Ew). rewrite app_length in Lw2. simpl in Lw2. lia.
  - destruct IH as [[H1 H2]|(v & a & b & Hv & IH)]; [|right; exists v, a, b; split; auto; apply in_or_app; auto].
    destruct (in_dec Nat.eq_dec i w) as [Hw|Hw].
    + right. destruct (in_split _ _ Hw) as (a & b & Ew). destruct (around (map fst (concat ws)) a i b Ew H2 g Hn) as (v & V & M).
      rewrite (cwalk_fun _ _ _ _ _ _ V _ W) in M. exists ww, a, (i :: b). split; [apply in_or_app; right; now left|]. split; auto.
    + left. split.
      * intros k Hk. apply in_app_or in Hk as [Hk|[<-|[]]]; auto.
      * intros k Hk. rewrite concat_app, map_app in Hk. apply in_app_or in Hk as [Hk|Hk]; auto. simpl in Hk. rewrite app_nil_r in Hk.
        apply in_map_iff in Hk as (x & <- & Hx). pose proof (walk_outside _ _ (i, g) _ Hn Hw W) as X. rewrite Forall_forall in X. now apply X.
Qed.
Lemma polygon_found : exists a b, w = a ++ b /\
  (fgt (signed_area h (RSegments (at_positions D (b ++ a)))) f0 = true ->
   In (RSegments (at_positions D (b ++ a))) (fst (find_rings h s))).
Proof.
  destruct (find_rings_spec h s) as (ws & G & -> & _). fold D in G. destruct (polygon_walked _ _ G) as [[H _]|(ww & a & b & Hw & E & M)].
  - exfalso. pose proof (ip_size _ _ _ IP) as L. destruct (follows_pred w (hd 0 w)) as [i Hi]; auto.
    { destruct w; simpl in *; [lia|now left]. }
    destruct (follows_in _ _ _ Hi) as [Wi _]. apply (H i); auto. destruct (ip_lines _ _ _ IP i Wi) as (l & Hl & _). apply in_seq.
    assert (i < length D) by (apply nth_error_Some; unfold D; congruence). lia.
  - exists a, b. split; auto. intros P. apply filter_In. split; [|exact P]. apply (Permutation_in _ (Permutation_sym (sort_perm h _))).
    apply in_or_app. left. apply in_map_iff. exists ww. split; auto. f_equal. rewrite <- M. symmetry. apply at_positions_map0.
    destruct (greedy_nodup _ _ _ _ G) as [_ C]. apply Forall_forall. intros x Hx. rewrite Forall_forall in C. apply C. apply in_concat. eauto.
Qed.
End Poly.
End PL.
