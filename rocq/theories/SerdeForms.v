(** * The serialisation properties in their final form *)
From Coq Require Import List ZArith NArith Arith Bool Lia Sorted.
From Verif Require Import Arith Vec Prim Cons Sketch Solve Serde Api Spec HeapLemmas SolveLemmas BookLemmas WfLemmas DataLemmas SpecLemmas ArithR ExactSpec PureLemmas RestLemmas ExactLemmas GradLemmas StepLemmas SerdeSpec SerdeLemmas.
Import ListNotations.

Section SF.
Context {F : Type} {A : Arith F}.

Lemma ext_extends (h h' : heap F) : ext h h' -> extends h h'.
Proof.
  intros E. pose proof (ext_cell _ _ : forall c, ext h h' -> _) as X. split; [|split; [|split; [|split]]]; intros l Hl.
  - split; [apply (X (PPoint l) E Hl) | now apply ext_getP].
  - split; [apply (X (PLine l) E Hl) | now apply ext_getL].
  - split; [apply (X (PArc l) E Hl) | now apply ext_getA].
  - split; [apply (X (PCircle l) E Hl) | now apply ext_getC].
  - split; [|now apply ext_getK]. destruct (e_cons _ _ E) as [x ->]. rewrite app_length. lia.
Qed.
Lemma ser_looks (h h' : heap F) c c' : ser_prim h' c' = ser_prim h c -> looks_like h c h' c'.
Proof.
  unfold looks_like. destruct c, c'; cbn [ser_prim]; unfold ser_line, ser_arc, ser_circle; intros E; try discriminate; injection E; clear E; intros; cbn [prim_data prim_refs map];
  repeat match goal with E : _ = _ |- _ => rewrite ?E; clear E end; auto.
Qed.
Lemma ser_con_looks (h h' : heap F) c c' : ser_con h' c' = ser_con h c -> con_looks_like h c h' c'.
Proof.
  unfold con_looks_like. destruct c, c'; cbn [ser_con]; intros E; try discriminate; injection E; clear E; intros; cbn [same_kind con_params con_refs];
  (split; [reflexivity|]; split; [congruence|]); repeat (apply Forall2_cons || apply Forall2_nil); apply ser_looks; cbn [ser_prim]; unfold ser_line, ser_arc; congruence.
Qed.

Section Copy.
Variables (h h0 h' : heap F) (s s' : sketch).
Hypothesis V : valid h s.
Hypothesis D : deserialize (serialize h s) h0 = (h', s').
Lemma keys_t : StronglySorted N.lt (map fst (t_prims (serialize h s))).
Proof. unfold serialize. cbn [t_prims]. rewrite map_map. cbn [fst]. apply V. Qed.
Lemma the_copy : fresh_copy h0 h' s' (serialize h s).
Proof. apply deserialize_spec; auto. apply keys_t. Qed.
Lemma ser_eq : serialize h' s' = serialize h s.
Proof. apply the_copy. Qed.
Lemma ser_parts : map (fun kp => (fst kp, ser_prim h' (snd kp))) (s_prims s') = map (fun kp => (fst kp, ser_prim h (snd kp))) (s_prims s) /\
  s_next s' = s_next s /\ map (fun k => ser_con h' (getK h' k)) (s_cons s') = map (fun k => ser_con h (getK h k)) (s_cons s).
Proof. pose proof ser_eq as E. unfold serialize in E. injection E as E1 E2 E3. auto. Qed.
Lemma C47_structure : extends h0 h' /\ (heap_ok h0 -> valid h' s') /\ s_next s' = s_next s /\
  (forall id, match get_primitive_by_id s id, get_primitive_by_id s' id with
              | Some c, Some c' => looks_like h c h' c'
              | None, None => True
              | _, _ => False
              end) /\
  Forall2 (fun k k' => con_looks_like h (getK h k) h' (getK h' k')) (s_cons s) (s_cons s').
Proof.
  destruct ser_parts as (E1 & E2 & E3). split; [apply ext_extends, the_copy|]. split; [intros O; eapply copy_valid; [apply keys_t | apply the_copy | auto]|]. split; [auto|]. split.
  - intros id. unfold get_primitive_by_id. clear - E1. revert E1. generalize (s_prims s') as m'. induction (s_prims s) as [|[k c] m IH]; intros [|[k' c'] m'] E; simpl in *; try discriminate; auto.
    injection E as -> E2 E3. destruct (id =? k)%N; [now apply ser_looks | now apply IH].
  - clear - E3. revert E3. generalize (s_cons s') as m'. induction (s_cons s) as [|k m IH]; intros [|k' m'] E; simpl in *; try discriminate; constructor.
    + apply ser_con_looks. congruence.
    + apply IH. congruence.
Qed.
Lemma cells_ser : map (ser_prim h') (cells s') = map (ser_prim h) (cells s).
Proof.
  destruct ser_parts as (E1 & _ & _). apply (f_equal (map snd)) in E1. rewrite !map_map in E1. cbn [snd] in E1.
  unfold cells. rewrite !map_map. exact E1.
Qed.
Lemma data_by_ser l l' : map (ser_prim h') l' = map (ser_prim h) l -> map (prim_data h') l' = map (prim_data h) l.
Proof.
  revert l'. induction l as [|c l IH]; intros [|c' l'] E; simpl in *; try discriminate; auto. injection E as E1 E2. rewrite (proj1 (ser_prim_data _ _ _ _ E1)). f_equal. now apply IH.
Qed.
Lemma C47_values : get_data h' s' = get_data h s /\ get_n_dofs h' s' = get_n_dofs h s /\
  get_num_primitives s' = get_num_primitives s /\ get_num_constraints s' = get_num_constraints s /\
  get_loss_per_constraint h' s' = get_loss_per_constraint h s /\ get_loss h' s' = get_loss h s.
Proof.
  destruct ser_parts as (E1 & E2 & E3). pose proof (data_by_ser _ _ cells_ser) as Dt.
  assert (L : get_loss_per_constraint h' s' = get_loss_per_constraint h s).
  { unfold get_loss_per_constraint. clear - E3. revert E3. generalize (s_cons s') as m'. induction (s_cons s) as [|k m IH]; intros [|k' m'] E; simpl in *; try discriminate; auto.
    injection E as X Y. f_equal; [now apply ser_con_loss | now apply IH]. }
  split; [|split; [|split; [|split; [|split]]]]; auto.
  - unfold get_data. rewrite !flat_map_concat_map. apply (f_equal (@concat F)). exact Dt.
  - assert (G : forall (hh : heap F) l n, fold_left (fun n c => n + length (prim_data hh c)) l n = fold_left (fun n v => n + length v) (map (prim_data hh) l) n).
    { intros hh l. induction l as [|c l IH]; intros n; simpl; auto. }
    unfold get_n_dofs. now rewrite !G, Dt.
  - unfold get_num_primitives. apply (f_equal (@length _)) in E1. now rewrite !map_length in E1.
  - unfold get_num_constraints. apply (f_equal (@length _)) in E3. now rewrite !map_length in E3.
  - assert (G : forall (hh : heap F) l n, fold_left (fun acc k => acc +f loss_value hh (getK hh k)) l n = fold_left fadd (map (fun k => loss_value hh (getK hh k)) l) n).
    { intros hh l. induction l as [|c l IH]; intros n; simpl; auto. }
    unfold get_loss. rewrite !G. unfold get_loss_per_constraint in L. now rewrite L.
Qed.

(** ** Nothing is shared *)
Hypothesis O0 : heap_ok h0.
Lemma copy_v : valid h' s'.
Proof. eapply copy_valid; [apply keys_t | apply the_copy | auto]. Qed.
Lemma reads_deps hh k x : reads hh k x <-> In x (deps hh (getK hh k)).
Proof.
  unfold reads, deps. rewrite in_flat_map. split; intros (r & H1 & H2); exists r; split; auto.
  - destruct H2 as [->|H2]; [now left|now right].
  - destruct H2 as [->|H2]; [now left|now right].
Qed.
Lemma group_pos hh l a b x : NoDup (groups hh l) -> In a l -> In b l -> In x (group hh a) -> In x (group hh b) -> a = b.
Proof.
  induction l as [|c l IH]; intros N Ha Hb Xa Xb; [contradiction|].
  change (NoDup (group hh c ++ groups hh l)) in N.
  assert (K : forall y, In y l -> In x (group hh y) -> In x (groups hh l)) by (intros y Hy Hx; apply in_flat_map; eauto).
  destruct Ha as [<-|Ha], Hb as [<-|Hb]; auto.
  - destruct (nodup_app_disj (group hh c) (groups hh l) x N Xa (K b Hb Xb)).
  - destruct (nodup_app_disj (group hh c) (groups hh l) x N Xb (K a Ha Xa)).
  - apply IH; auto. clear - N. induction (group hh c); simpl in *; auto. inversion N; auto.
Qed.
Lemma deps_pos hh l a b x : NoDup (all_deps hh l) -> In a l -> In b l -> In x (deps hh (getK hh a)) -> In x (deps hh (getK hh b)) -> a = b.
Proof.
  induction l as [|c l IH]; intros N Ha Hb Xa Xb; [contradiction|].
  change (NoDup (deps hh (getK hh c) ++ all_deps hh l)) in N.
  assert (K : forall y, In y l -> In x (deps hh (getK hh y)) -> In x (all_deps hh l)) by (intros y Hy Hx; apply in_flat_map; eauto).
  destruct Ha as [<-|Ha], Hb as [<-|Hb]; auto.
  - destruct (nodup_app_disj _ _ x N Xa (K b Hb Xb)).
  - destruct (nodup_app_disj _ _ x N Xb (K a Ha Xa)).
  - apply IH; auto. clear - N. induction (deps hh (getK hh c)); simpl in *; auto. inversion N; auto.
Qed.
Lemma nodup_app_r {T} (l l' : list T) : NoDup (l ++ l') -> NoDup l'.
Proof. induction l; simpl; auto. intros N. inversion N; auto. Qed.
Lemma reg_in c : registered s' c <-> In c (cells s').
Proof. apply (valid_reg _ _ _ copy_v). Qed.
Lemma C48_unshared_lemma :
  (forall c r, registered s' c -> In r (prim_refs h' c) -> ~ registered s' r) /\
  (forall k x, In k (s_cons s') -> reads h' k x -> ~ registered s' x) /\
  (forall c1 c2 r, registered s' c1 -> registered s' c2 -> In r (prim_refs h' c1) -> In r (prim_refs h' c2) -> c1 = c2) /\
  (forall k1 k2 x, In k1 (s_cons s') -> In k2 (s_cons s') -> reads h' k1 x -> reads h' k2 x -> k1 = k2) /\
  (forall c r k x, registered s' c -> In r (prim_refs h' c) -> In k (s_cons s') -> reads h' k x -> x <> r) /\
  (forall c, registered s' c -> ~ cell_ok h0 c) /\ (forall k x, In k (s_cons s') -> length (h_cons h0) <= k /\ (reads h' k x -> ~ cell_ok h0 x)).
Proof.
  destruct the_copy as [Ce Cs Cn Cd Cc Ck Ch]. pose proof (nodup_app_l _ _ Cd) as N1. pose proof (nodup_app_r _ _ Cd) as N2.
  assert (GG : forall c x, registered s' c -> In x (group h' c) -> In x (groups h' (cells s'))).
  { intros c x Hc Hx. apply reg_in in Hc. apply in_flat_map. eauto. }
  assert (KK : forall k x, In k (s_cons s') -> reads h' k x -> In x (all_deps h' (s_cons s'))).
  { intros k x Hk Hx. apply reads_deps in Hx. apply in_flat_map. eauto. }
  rewrite Forall_forall in Cn.
  split; [|split; [|split; [|split; [|split; [|split]]]]].
  - intros c r Hc Hr Hr'. assert (E : c = r).
    { apply reg_in in Hc. apply reg_in in Hr'. apply (group_pos h' (cells s') c r r); auto; [now right | now left]. }
    subst r. clear - Hr. destruct c; simpl in Hr; repeat destruct Hr as [Hr|Hr]; try discriminate; auto.
  - intros k x Hk Hx Hr. eapply nodup_app_disj; [exact Cd | apply (GG x x); [auto | now left] | eapply KK; eauto].
  - intros c1 c2 r H1 H2 R1 R2. apply reg_in in H1. apply reg_in in H2. apply (group_pos h' (cells s') c1 c2 r); auto; now right.
  - intros k1 k2 x H1 H2 R1 R2. apply reads_deps in R1. apply reads_deps in R2. eapply deps_pos; eauto.
  - intros c r k x Hc Hr Hk Hx E. subst x. eapply nodup_app_disj; [exact Cd | apply (GG c r); [auto | now right] | eapply KK; eauto].
  - intros c Hc. apply Cn. apply in_or_app. left. apply (GG c); auto. now left.
  - intros k x Hk. split; [rewrite Cc in Hk; apply in_seq in Hk; lia|]. intros Hx. apply Cn. apply in_or_app. right. eapply KK; eauto.
Qed.
Lemma not_deps c k : registered s' c -> In k (s_cons s') -> ~ In c (deps h' (getK h' k)).
Proof. intros Hc Hk H. apply reads_deps in H. destruct C48_unshared_lemma as (_ & X & _). now apply (X k c). Qed.
End Copy.

Lemma zeros_flat (f : pcell -> vec F) l : (forall c, In c l -> Forall (fun x => x = f0) (f c)) -> Forall (fun x => x = f0) (flat_map f l).
Proof. intros H. induction l as [|c l IH]; simpl; auto. apply Forall_app. split; [apply H; now left | apply IH; intros; apply H; now right]. Qed.
Lemma forall_repeat (n : nat) : Forall (fun x : F => x = f0) (repeat f0 n).
Proof. induction n; simpl; auto. Qed.
Lemma stored_of s (h h' : heap F) g : get_gradient s h = (h', Val g) -> g = stored_gradient s h'.
Proof.
  unfold get_gradient, mbind at 1. destruct (mfor _ _ _) as [h1 [u|]]; [|discriminate]. unfold mbind, massert. destruct (forallb _ _); [|discriminate].
  intros E. injection E as <- <-. reflexivity.
Qed.
Lemma gradient_zero s (h h' : heap F) g : valid h s -> (forall c k, In c (cells s) -> In k (s_cons s) -> ~ In c (deps h (getK h k))) ->
  get_gradient s h = (h', Val g) -> Forall (fun x => x = f0) g.
Proof.
  intros V N E. rewrite (stored_of _ _ _ _ E). apply zeros_flat. intros c Hc.
  pose proof (untouched_grad s h h' g c V Hc (fun k => N c k Hc) E) as U. rewrite (stored_of _ _ _ _ E) in U. unfold stored_gradient in U.
  rewrite chunk_flat in U; auto; [|apply prim_grad_dim]. rewrite U. apply forall_repeat.
Qed.
Lemma deps_struct (h h1 : heap F) k : struct_eq h h1 -> deps h1 (getK h1 k) = deps h (getK h k).
Proof.
  intros S. rewrite (struct_getK _ _ _ S). unfold deps. apply flat_map_ext. intros r. now rewrite (struct_refs _ _ _ S).
Qed.
Lemma jacobian_zero s (h : heap F) : valid h s -> (forall c k, In c (cells s) -> In k (s_cons s) -> ~ In c (deps h (getK h k))) ->
  forall h' J, get_jacobian s h = (h', Val J) -> Forall (Forall (fun x => x = f0)) J.
Proof.
  intros V N. unfold get_jacobian.
  assert (G : forall ks h1 h' J, sdeq h h1 -> incl ks (s_cons s) -> jacobian_rows s ks h1 = (h', Val J) -> Forall (Forall (fun x => x = f0)) J).
  { induction ks as [|k ks IH]; intros h1 h' J S Hi E.
    - injection E as <- <-. constructor.
    - cbn [jacobian_rows] in E. unfold mbind at 1 in E.
      assert (Sz : sdeq h (zero_all s h1)) by (eapply sd_pre; [exact S | apply zero_all_sd]).
      assert (X : forall c, In c (cells s) -> prim_grad (fst (update_gradient (getK (zero_all s h1) k) (zero_all s h1))) c = repeat f0 (dim c)).
      { intros c Hc. rewrite update_other.
        - apply zero_list; auto. intros x Hx. apply (grows_cell h h1 x (struct_grows _ _ (proj1 S))). apply (v_live _ _ V). now apply (valid_reg _ _ _ V).
        - rewrite (deps_struct _ _ _ (proj1 Sz)). apply N; auto. apply Hi. now left. }
      pose proof (update_sd (getK (zero_all s h1) k) (zero_all s h1)) as S2.
      destruct (update_gradient (getK (zero_all s h1) k) (zero_all s h1)) as [h2 [u|]]; [|discriminate]. cbn [fst] in *.
      unfold mbind in E. destruct (jacobian_rows s ks h2) as [h3 [rows|]] eqn:E3; [|discriminate]. injection E as <- <-. constructor.
      + apply zeros_flat. intros c Hc. rewrite X by auto. apply forall_repeat.
      + apply (IH h2 h3 rows); auto; [eapply sd_pre; [exact Sz | exact S2] | intros x Hx; apply Hi; now right]. }
  intros h' J. apply G; [apply sd_pre | apply incl_refl].
Qed.

(** ** The losses of constraints on unregistered cells never change *)
Lemma pdata_eq (h h' : heap F) l : prim_data h' (PPoint l) = prim_data h (PPoint l) -> pdata h' l = pdata h l.
Proof. intros E. unfold pdata, p_data. cbn [prim_data] in E. injection E as -> ->. reflexivity. Qed.
Lemma loss_local (h h' : heap F) c : struct_eq h h' -> (forall d, In d (deps h c) -> prim_data h' d = prim_data h d) -> loss_value h' c = loss_value h c.
Proof.
  intros (S1 & _ & _ & _ & _ & S6 & _) H.
  assert (GL : forall l, getL h' l = getL h l) by (intros; unfold getL; now rewrite S1).
  assert (P : forall l, In (PPoint l) (deps h c) -> pdata h' l = pdata h l) by (intros l Hl; apply pdata_eq; auto).
  assert (Ar : forall a, In (PArc a) (deps h c) -> In (PPoint (a_center (getA h a))) (deps h c) ->
    arc_start_point h' (getA h' a) = arc_start_point h (getA h a) /\ arc_end_point h' (getA h' a) = arc_end_point h (getA h a)).
  { intros a H1 H2. destruct (S6 a) as [Ec Ew]. pose proof (H _ H1) as D. cbn [prim_data] in D. injection D as D1 D2 D3.
    pose proof (P _ H2) as Q. unfold pdata, p_data in Q. injection Q as Q1 Q2.
    unfold arc_start_point, arc_end_point. rewrite Ec, D1, D2, D3, Q1, Q2. auto. }
  unfold deps in *.
  destruct c; cbn [con_refs flat_map prim_refs app In] in *; cbn [loss_value];
  unfold current_angle, current_distance, current_hdistance, current_vdistance, line_start, line_end; rewrite ?GL;
  try (match goal with |- context [arc_end_point h' (getA h' ?a)] => destruct (Ar a) as [_ ->] | |- context [arc_start_point h' (getA h' ?a)] => destruct (Ar a) as [-> _] end; [tauto|tauto|]);
  rewrite ?P by tauto; reflexivity.
Qed.
Lemma frame_losses s (h h' : heap F) : valid h s -> (forall k x, In k (s_cons s) -> In x (deps h (getK h k)) -> ~ registered s x) ->
  frame s h h' -> get_loss_per_constraint h' s = get_loss_per_constraint h s.
Proof.
  intros V N [S D]. unfold get_loss_per_constraint. apply map_ext_in. intros k Hk. rewrite (struct_getK _ _ _ S).
  apply loss_local; auto. intros d Hd. apply D. unfold unreg. rewrite <- (valid_reg _ _ _ V). eapply N; eauto.
Qed.
Lemma C48_loss_lemma (h h0 h' : heap F) s s' : valid h s -> heap_ok h0 -> deserialize (serialize h s) h0 = (h', s') ->
  forall pinv sol v, get_loss_per_constraint (fst (solve pinv sol s' h')) s' = get_loss_per_constraint h s /\
                     get_loss_per_constraint (fst (set_data s' v h')) s' = get_loss_per_constraint h s.
Proof.
  intros V O D pinv sol v. destruct (C47_values h h0 h' s s' V D) as (_ & _ & _ & _ & <- & _). pose proof (copy_v h h0 h' s s' V D O) as V'.
  assert (N : forall k x, In k (s_cons s') -> In x (deps h' (getK h' k)) -> ~ registered s' x).
  { intros k x Hk Hx. apply reads_deps in Hx. destruct (C48_unshared_lemma h h0 h' s s' V D O) as (_ & X & _). now apply (X k x). }
  split; apply frame_losses; auto; [apply solve_frame | apply set_data_frame'].
Qed.
Lemma C48_gradient_lemma (h h0 h' : heap F) s s' : valid h s -> heap_ok h0 -> deserialize (serialize h s) h0 = (h', s') ->
  (forall h1 g, get_gradient s' h' = (h1, Val g) -> Forall (fun x => x = f0) g) /\
  (forall h1 J, get_jacobian s' h' = (h1, Val J) -> Forall (Forall (fun x => x = f0)) J).
Proof.
  intros V O D. pose proof (copy_v h h0 h' s s' V D O) as V'.
  assert (N : forall c k, In c (cells s') -> In k (s_cons s') -> ~ In c (deps h' (getK h' k))).
  { intros c k Hc Hk. apply (not_deps h h0 h' s s' V D O); auto. now apply (valid_reg _ _ _ V'). }
  split; [intros h1 g; now apply gradient_zero | now apply jacobian_zero].
Qed.
End SF.

(** ** Exact arithmetic: the gradient based solvers do nothing *)
Lemma ser_con_deps {F} {A : Arith F} (h h' : heap F) c c' : ser_con h' c' = ser_con h c ->
  map (prim_data h') (deps h' c') = map (prim_data h) (deps h c) /\ con_new_ok c' = con_new_ok c.
Proof.
  destruct c, c'; cbn [ser_con]; unfold ser_line, ser_arc; intros E; try discriminate; injection E; clear E; intros; unfold deps; cbn [con_refs flat_map prim_refs app map prim_data con_new_ok];
  repeat match goal with E : _ = _ |- _ => rewrite ?E; clear E end; auto.
Qed.
Lemma C48_inert_lemma pinv sol (h h0 h' : heap xR) s s' : valid h s -> finite_data h s -> all_con_finite h s -> heap_ok h0 ->
  deserialize (serialize h s) h0 = (h', s') -> match sol with GradientBased _ | BFGS _ => True | _ => False end ->
  get_data (fst (solve pinv sol s' h')) s' = get_data h s.
Proof.
  intros V Fd CF O D Hs. pose proof (copy_v h h0 h' s s' V D O) as V'. destruct (C47_values h h0 h' s s' V D) as (Ed & _). rewrite <- Ed.
  assert (Fd' : finite_data h' s').
  { apply (finite_iff _ _ (valid_keys _ _ V')). rewrite Ed. now apply (finite_iff _ _ (valid_keys _ _ V)). }
  assert (CF' : all_con_finite h' s').
  { destruct (ser_parts h h0 h' s s' V D) as (_ & _ & E). intros k Hk.
    assert (X : exists k0, In k0 (s_cons s) /\ ser_con h' (getK h' k) = ser_con h (getK h k0)).
    { assert (I : In (ser_con h' (getK h' k)) (map (fun k => ser_con h' (getK h' k)) (s_cons s'))) by (apply in_map_iff; eauto).
      rewrite E in I. apply in_map_iff in I as (k0 & E0 & Hk0). eauto. }
    destruct X as (k0 & Hk0 & E0). destruct (CF k0 Hk0) as [C1 C2]. destruct (ser_con_deps _ _ _ _ E0) as [E1 E2]. split; [congruence|].
    intros d Hd. assert (I : In (prim_data h' d) (map (prim_data h') (deps h' (getK h' k)))) by (apply in_map_iff; eauto).
    rewrite E1 in I. apply in_map_iff in I as (d0 & <- & Hd0). now apply C2. }
  unfold get_data. rewrite !flat_map_concat_map. f_equal. apply map_ext_in. intros c Hc.
  assert (R : registered s' c) by now apply (valid_reg _ _ _ V').
  apply C31_lemma; auto. intros k Hk. now apply (not_deps h h0 h' s s' V D O).
Qed.
