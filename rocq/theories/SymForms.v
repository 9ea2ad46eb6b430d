(** * The order of insertion, and the witnesses (proofs for C66 and C67) *)
From Coq Require Import List ZArith NArith Arith Bool Lia Permutation Reals Lra.
From Verif Require Import Arith Vec Prim Cons Sketch Solve Api Spec SolverSpec ArithR ExactSpec MotionSpec SymSpec
  HeapLemmas SolveLemmas WfLemmas DataLemmas SpecLemmas ExactLemmas DerivLemmas GradLemmas PureLemmas LossLemmas
  SearchLemmas StepLemmas RMat NlsMat ExactRun RestLemmas ConserveLemmas MotionLemmas SymSim SymGeo SymLemmas DecompLemmas.
Import ListNotations.
Local Open Scope R_scope.

(** ** no motion *)
Lemma move_x_0 x y : move_x 0 0 x y = x. Proof. unfold move_x. rewrite cos_0, sin_0. ring. Qed.
Lemma move_y_0 x y : move_y 0 0 x y = y. Proof. unfold move_y. rewrite cos_0, sin_0. ring. Qed.
Lemma move_con_0 r c : con_new_ok c = true -> move_con r 0 0 0 c = rename_con r c.
Proof.
  destruct c; auto. simpl. intros H. apply andb_true_iff in H as [H1 H2]. rewrite move_x_0, move_y_0.
  f_equal; symmetry; now apply ffin_inv.
Qed.
Lemma move_data_0 c d : move_data 0 0 0 c d = d.
Proof.
  destruct c; auto; [destruct d as [|x [|y [|]]] | destruct d as [|x [|y [|z [|]]]]]; auto; simpl.
  - now rewrite move_x_0, move_y_0.
  - now rewrite !Rplus_0_r.
Qed.
Lemma same_congruent r h1 s1 h2 s2 : all_con_finite h1 s1 -> same_sketch r h1 s1 h2 s2 -> congruent r 0 0 0 h1 s1 h2 s2.
Proof.
  intros CF (G1 & G2 & G3 & G4 & G5). split; auto. split; auto.
  - split; [|split].
    + erewrite (map_ext_in (fun k => move_con r 0 0 0 (getK h1 k))); [exact G3|]. intros k Hk. apply move_con_0. now apply CF.
    + auto.
    + intros c d Hc E. rewrite G5, E, move_data_0; auto.
Qed.
Lemma congruent_same r h1 s1 h2 s2 : all_con_finite h1 s1 -> (forall c, registered s1 c -> exists d, prim_data h1 c = map Fin d) ->
  congruent r 0 0 0 h1 s1 h2 s2 -> same_sketch r h1 s1 h2 s2.
Proof.
  intros CF FD (G1 & G2 & G3 & G4 & G5). split; auto. split; auto. split; [|split]; auto.
  - erewrite (map_ext_in (fun k => rename_con r (getK h1 k))); [exact G3|]. intros k Hk. cbn beta. symmetry. apply move_con_0. now apply CF.
  - intros c Hc. destruct (FD c Hc) as [d E]. rewrite (G5 c d Hc E), move_data_0. auto.
Qed.
Lemma same_solve pinv sol r s1 s2 h1 h2 :
  valid h1 s1 -> valid h2 s2 -> refs_closed h1 s1 -> finite_data h1 s1 -> all_con_finite h1 s1 ->
  same_sketch r h1 s1 h2 s2 -> coordinate_free pinv -> finite_steps sol ->
  snd (solve pinv sol s2 h2) = snd (solve pinv sol s1 h1) /\
  same_sketch r (fst (solve pinv sol s1 h1)) s1 (fst (solve pinv sol s2 h2)) s2.
Proof.
  intros V1 V2 RC FD CF G PC FS.
  destruct (congruent_solve pinv sol r 0 0 0 s1 s2 h1 h2 V1 V2 RC FD CF (same_congruent _ _ _ _ _ CF G) (or_introl eq_refl) PC FS) as [E C].
  { destruct sol; simpl; auto. left. apply sin_0. }
  split; auto. apply congruent_same; auto.
  - pose proof (solve_frame pinv sol s1 h1) as Fr. destruct (solve pinv sol s1 h1) as [h' o] eqn:Es. cbn [fst] in *.
    apply (ok_fin s1 h1 CF). split; auto. apply (finite_iff _ _ (valid_keys _ _ V1)).
    pose proof (C32_lemma pinv sol s1 h1 V1 FD) as X. rewrite Es in X. exact X.
  - intros c Hc. exists (map vx (prim_data (fst (solve pinv sol s1 h1)) c)). apply solve_data_finite; auto.
    now apply (valid_reg _ _ _ V1).
Qed.

(** ** the order of the calls that add constraints *)
Definition accepted (s : sketch) (c : con xR) : bool := con_new_ok c && forallb (has_prim s) (con_refs c).
Lemma constrain_run pinv L : forall h s rs h' s', valid h s -> run pinv (h, s) (map Constrain L) rs (h', s') ->
  valid h' s' /\ s_prims s' = s_prims s /\
  h_pts h' = h_pts h /\ h_lines h' = h_lines h /\ h_arcs h' = h_arcs h /\ h_circs h' = h_circs h /\
  map (getK h') (s_cons s') = map (getK h) (s_cons s) ++ filter (accepted s) L.
Proof.
  induction L as [|c L IH]; intros h s rs h' s' V H; simpl in H.
  - inversion H; subst. rewrite app_nil_r. repeat (split; auto).
  - inversion H as [|? ? st1 ro ? rs' ? Ok Est Hrun]; subst. clear H. simpl in Ok. pose proof Est as H3. simpl in H3. pose proof Hrun as H5.
    assert (Same : forall h1, st1 = (h1, s) -> h1 = h \/ h1 = fst (allocK h c) -> accepted s c = false ->
      valid h' s' /\ s_prims s' = s_prims s /\
      h_pts h' = h_pts h /\ h_lines h' = h_lines h /\ h_arcs h' = h_arcs h /\ h_circs h' = h_circs h /\
      map (getK h') (s_cons s') = map (getK h) (s_cons s) ++ filter (accepted s) (c :: L)).
    { intros h1 -> Hh Ac. simpl. rewrite Ac.
      assert (V' : valid h1 s).
      { destruct Hh as [->| ->]; auto. destruct V as [K1 K2 K3 K4 K5 K6]. split; auto.
        - destruct (heap_ok_alloc h K4) as (_ & _ & _ & _ & A). auto.
        - intros k Hk. simpl. rewrite app_length. specialize (K6 k Hk). lia. }
      destruct (IH _ _ _ _ _ V' H5) as (I1 & I2 & I3 & I4 & I5 & I6 & I7).
      assert (KK : map (getK h1) (s_cons s) = map (getK h) (s_cons s)).
      { destruct Hh as [->| ->]; auto. apply map_ext_in. intros k Hk. unfold getK. simpl. apply app_nth1. now apply V. }
      rewrite I7, KK. split; auto. split; auto.
      destruct Hh as [->| ->]; simpl in *; auto 10. }
    unfold constrain in H3. destruct (con_new_ok c) eqn:N; cbn [negb] in H3.
    2:{ injection H3 as <- <-. apply (Same h); auto. unfold accepted. now rewrite N. }
    destruct (allocK h c) as [h1 k] eqn:Al. unfold add_constraint in H3.
    assert (Ek : k = length (h_cons h)) by (unfold allocK in Al; now injection Al).
    assert (E1 : h1 = fst (allocK h c)) by now rewrite Al.
    assert (Gk : getK h1 k = c) by (subst; unfold getK; simpl; rewrite app_nth2, Nat.sub_diag by lia; reflexivity).
    rewrite Gk in H3. destruct (forallb (has_prim s) (con_refs c)) eqn:P; cbn [negb] in H3.
    2:{ injection H3 as <- <-. apply (Same h1); auto. unfold accepted. now rewrite N, P. }
    destruct (has_con s k) eqn:Hk.
    { exfalso. unfold has_con in Hk. apply existsb_exists in Hk as (x & Hx & Ex). apply Nat.eqb_eq in Ex. subst x.
      pose proof (v_live_cons _ _ V k Hx). lia. }
    injection H3 as <- <-. simpl. assert (Ac : accepted s c = true) by (unfold accepted; now rewrite N, P). rewrite Ac.
    set (s1 := mkSketch (s_prims s) (s_next s) (s_cons s ++ [k])) in *.
    assert (V' : valid h1 s1).
    { destruct V as [K1 K2 K3 K4 K5 K6]. rewrite E1. split; auto.
      - simpl. apply NoDup_app2; auto; [repeat constructor; auto|]. intros x [<-|[]] Hx. specialize (K6 k Hx). lia.
      - destruct (heap_ok_alloc h K4) as (_ & _ & _ & _ & A). auto.
      - intros x Hx. simpl in *. rewrite app_length. apply in_app_or in Hx as [Hx|[<-|[]]]; [specialize (K6 x Hx); lia | simpl; lia]. }
    destruct (IH _ _ _ _ _ V' H5) as (I1 & I2 & I3 & I4 & I5 & I6 & I7).
    assert (KK : map (getK h1) (s_cons s) = map (getK h) (s_cons s)).
    { rewrite E1. apply map_ext_in. intros x Hx. unfold getK. simpl. apply app_nth1. now apply V. }
    split; auto. split; auto. rewrite E1 in I3, I4, I5, I6. simpl in I3, I4, I5, I6. repeat (split; [auto|]).
    rewrite I7. simpl. rewrite map_app, KK. simpl. rewrite Gk, <- app_assoc. reflexivity.
Qed.

Definition ren_id : renaming := mkRen (fun l => l) (fun l => l) (fun l => l) (fun l => l).
Lemma ren_id_eq c : ren ren_id c = c. Proof. destruct c; reflexivity. Qed.
Lemma rename_id c : rename_con ren_id c = c. Proof. destruct c; reflexivity. Qed.
Lemma same_heap (h h' : heap xR) : h_pts h' = h_pts h -> h_lines h' = h_lines h -> h_arcs h' = h_arcs h -> h_circs h' = h_circs h ->
  forall c, prim_data h' c = prim_data h c /\ prim_refs h' c = prim_refs h c.
Proof. intros E1 E2 E3 E4 c. destruct c; simpl; unfold getP, getL, getA, getC; rewrite ?E1, ?E2, ?E3, ?E4; auto. Qed.
Lemma order_solve pinv sol h s L1 L2 rs1 rs2 h1 s1 h2 s2 :
  valid h s -> refs_closed h s -> finite_data h s -> all_con_finite h s -> Permutation L1 L2 ->
  run pinv (h, s) (map Constrain L1) rs1 (h1, s1) -> run pinv (h, s) (map Constrain L2) rs2 (h2, s2) ->
  coordinate_free pinv -> finite_steps sol ->
  snd (solve pinv sol s2 h2) = snd (solve pinv sol s1 h1) /\
  forall c, registered s c -> prim_data (fst (solve pinv sol s2 h2)) c = prim_data (fst (solve pinv sol s1 h1)) c.
Proof.
  intros V RC FD CF HP R1 R2 PC FS.
  destruct (constrain_run pinv L1 _ _ _ _ _ V R1) as (V1 & P1 & A1 & B1 & C1 & D1 & K1).
  destruct (constrain_run pinv L2 _ _ _ _ _ V R2) as (V2 & P2 & A2 & B2 & C2 & D2 & K2).
  pose proof (same_heap h h1 A1 B1 C1 D1) as S1. pose proof (same_heap h h2 A2 B2 C2 D2) as S2.
  assert (RG1 : forall c, registered s1 c <-> registered s c) by (intros c; unfold registered, get_primitive_by_id; now rewrite P1).
  assert (RG2 : forall c, registered s2 c <-> registered s c) by (intros c; unfold registered, get_primitive_by_id; now rewrite P2).
  assert (Cons : forall k, In k (s_cons s1) -> (exists k0, In k0 (s_cons s) /\ getK h1 k = getK h k0) \/ (accepted s (getK h1 k) = true)).
  { intros k Hk. assert (X : In (getK h1 k) (map (getK h1) (s_cons s1))) by now apply in_map.
    rewrite K1 in X. apply in_app_or in X as [X|X].
    - apply in_map_iff in X as (k0 & E & Hk0). left. eauto.
    - right. apply filter_In in X. tauto. }
  assert (Hp : forall c x, accepted s c = true -> In x (con_refs c) -> registered s x).
  { intros c x A Hx. apply andb_true_iff in A as [_ A]. rewrite forallb_forall in A. specialize (A x Hx).
    apply (valid_reg _ _ _ V). unfold has_prim in A. apply existsb_exists in A as (y & Hy & E).
    apply in_map_iff. apply pcell_eqb_eq in E. subst. eauto. }
  assert (RC1 : refs_closed h1 s1).
  { destruct RC as [X1 X2]. split.
    - intros c x Hc Hx. apply RG1. apply RG1 in Hc. rewrite (proj2 (S1 c)) in Hx. eauto.
    - intros k x Hk Hx. apply RG1. destruct (Cons k Hk) as [(k0 & Hk0 & E)|A]; [rewrite E in Hx; eauto | eauto]. }
  assert (FD1 : finite_data h1 s1).
  { intros c Hc. apply RG1 in Hc. rewrite (proj1 (S1 c)). auto. }
  assert (CF1 : all_con_finite h1 s1).
  { intros k Hk. destruct (Cons k Hk) as [(k0 & Hk0 & E)|A].
    - destruct (CF k0 Hk0) as [N D]. rewrite E. split; auto. intros d Hd. rewrite (proj1 (S1 d)). apply D.
      unfold deps in *. apply in_flat_map in Hd as (x & Hx & Hd). apply in_flat_map. exists x. split; auto.
      simpl in *. now rewrite (proj2 (S1 x)) in Hd.
    - pose proof A as A'. apply andb_true_iff in A' as [N _]. split; auto. intros d Hd.
      assert (Rd : registered s d).
      { unfold deps in Hd. apply in_flat_map in Hd as (x & Hx & [<-|Hd]); [eauto|]. rewrite (proj2 (S1 x)) in Hd.
        eapply (proj1 RC); eauto. }
      rewrite (proj1 (S1 d)). unfold all_finite. apply forallb_forall. specialize (FD d Rd). rewrite List.Forall_forall in FD. auto. }
  assert (SS : same_sketch ren_id h1 s1 h2 s2).
  { split; [intros c d _ _; now rewrite !ren_id_eq|]. split; [|split; [|split]].
    - intros c2. rewrite RG2. split.
      + intros Hc. exists c2. now rewrite RG1, ren_id_eq.
      + intros (c & Hc & ->). rewrite ren_id_eq. now apply RG1.
    - rewrite (map_ext (fun k => rename_con ren_id (getK h1 k)) (getK h1)) by (intros; apply rename_id).
      rewrite K1, K2. apply Permutation_app_head. symmetry. clear - HP.
      induction HP; simpl; auto.
      + destruct (accepted s x); auto.
      + destruct (accepted s x), (accepted s y); auto. constructor.
      + etransitivity; eauto.
    - intros c Hc. rewrite ren_id_eq, (proj2 (S1 c)), (proj2 (S2 c)). rewrite (map_ext _ (fun x => x)) by apply ren_id_eq. now rewrite map_id.
    - intros c Hc. rewrite ren_id_eq, (proj1 (S1 c)), (proj1 (S2 c)). auto. }
  destruct (same_solve pinv sol ren_id s1 s2 h1 h2 V1 V2 RC1 FD1 CF1 SS PC FS) as [E (_ & _ & _ & _ & X)].
  split; auto. intros c Hc. rewrite <- (X c) by now apply RG1. now rewrite ren_id_eq.
Qed.
