(** * Live handles and reference closure along histories (proofs for C02-C07) *)
From Coq Require Import List ZArith NArith Arith Bool Lia Sorted.
From Verif Require Import Arith Vec Prim Cons Sketch Solve Api HeapLemmas SolveLemmas BookLemmas.
Import ListNotations.

Section L.
Context {F : Type} {A : Arith F}.
Variable pinv : mat F -> F -> pinv_res (mat F).
Notation step := (step pinv).
Notation run := (run pinv).

Definition grows (h h' : heap F) : Prop :=
  length (h_pts h) <= length (h_pts h') /\ length (h_lines h) <= length (h_lines h') /\
  length (h_arcs h) <= length (h_arcs h') /\ length (h_circs h) <= length (h_circs h') /\
  length (h_cons h) <= length (h_cons h').
Definition keeps_refs (h h' : heap F) : Prop :=
  (forall c, cell_ok h c -> prim_refs h' c = prim_refs h c) /\
  (forall k, k < length (h_cons h) -> con_refs (getK h' k) = con_refs (getK h k)).

Lemma struct_grows h h' : struct_eq h h' -> grows h h'.
Proof. intros (H1&H2&H3&H4&H5&_). unfold grows. rewrite H1, H2, H3, H4, H5. lia. Qed.
Lemma struct_keeps h h' : struct_eq h h' -> keeps_refs h h'.
Proof.
  intros H; split; [intros c _; now apply struct_refs|].
  intros k _. now rewrite (struct_getK _ _ _ H).
Qed.
Lemma grows_cell h h' c : grows h h' -> cell_ok h c -> cell_ok h' c.
Proof. intros (H1&H2&H3&H4&H5); destruct c; simpl; lia. Qed.
Lemma grows_cells h h' l : grows h h' -> Forall (cell_ok h) l -> Forall (cell_ok h') l.
Proof. intros H; apply Forall_impl. intros c; now apply grows_cell. Qed.

(** the calls that re-point a primitive or a constraint *)
Definition repoints (o : op F) : bool :=
  match o with
  | LineSetStart _ _ | LineSetEnd _ _ | ArcSetCenter _ _ | CircleSetCenter _ _ | ConPut _ _ => true
  | _ => false
  end.

Lemma grows_refl h : grows h h. Proof. unfold grows; lia. Qed.
Lemma keeps_refl h : keeps_refs h h. Proof. split; auto. Qed.
Hint Resolve grows_refl keeps_refl : core.

Lemma nth_app_l {T} (l : list T) x i d : i < length l -> nth i (l ++ [x]) d = nth i l d.
Proof. intros; now apply app_nth1. Qed.

Lemma alloc_keeps h :
  (forall x, grows h (fst (allocP h x)) /\ keeps_refs h (fst (allocP h x))) /\
  (forall x, grows h (fst (allocL h x)) /\ keeps_refs h (fst (allocL h x))) /\
  (forall x, grows h (fst (allocA h x)) /\ keeps_refs h (fst (allocA h x))) /\
  (forall x, grows h (fst (allocC h x)) /\ keeps_refs h (fst (allocC h x))) /\
  (forall x, grows h (fst (allocK h x)) /\ keeps_refs h (fst (allocK h x))).
Proof.
  repeat split; simpl; rewrite ?app_length; simpl; try lia;
  try (intros c Hc; destruct c; simpl in *; auto; unfold getL, getA, getC, getK; simpl;
       rewrite nth_app_l; auto; fail).
  all: unfold getK; simpl; intros; rewrite ?nth_app_l; auto.
Qed.
Lemma set_keeps h :
  (forall l x, grows h (setP h l x) /\ keeps_refs h (setP h l x)) /\
  (forall l x, a_center x = a_center (getA h l) -> a_cw x = a_cw (getA h l) -> grows h (setA h l x) /\ keeps_refs h (setA h l x)) /\
  (forall l x, c_center x = c_center (getC h l) -> grows h (setC h l x) /\ keeps_refs h (setC h l x)).
Proof.
  repeat split; try (apply struct_grows || apply struct_keeps);
    try apply struct_setP; try (now apply struct_setA); try (now apply struct_setC).
Qed.
Lemma setA_keeps h l x : a_center x = a_center (getA h l) -> grows h (setA h l x) /\ keeps_refs h (setA h l x).
Proof.
  intros E. split; [unfold grows; simpl; rewrite lset_length; lia|]. split; auto.
  intros c Hc; destruct c; simpl; auto. rewrite getA_setA.
  destruct (Nat.eqb l l0) eqn:E1; simpl; auto. destruct (Nat.ltb _ _); auto.
  apply Nat.eqb_eq in E1; subst. now rewrite E.
Qed.
Lemma con_with_params_refs (c : con F) x y : con_refs (con_with_params c x y) = con_refs c.
Proof. destruct c; reflexivity. Qed.
Lemma setK_keeps h k x : con_refs x = con_refs (getK h k) -> grows h (setK h k x) /\ keeps_refs h (setK h k x).
Proof.
  intros E. split; [unfold grows; simpl; rewrite lset_length; lia|]. split; auto.
  intros k' Hk. rewrite getK_setK.
  destruct (Nat.eqb k k') eqn:E1; simpl; auto. destruct (Nat.ltb _ _); auto.
  apply Nat.eqb_eq in E1; subst. now rewrite E.
Qed.

Lemma psx_struct l x : mpres (@struct_eq F A) (Point2_set_x l x).
Proof. apply mpres_bind; [apply struct_pre | apply mpres_assert, struct_pre | intros _ h; apply struct_setP]. Qed.
Lemma psy_struct l x : mpres (@struct_eq F A) (Point2_set_y l x).
Proof. apply mpres_bind; [apply struct_pre | apply mpres_assert, struct_pre | intros _ h; apply struct_setP]. Qed.

Lemma step_grows st o st' r : step st o = (st', r) ->
  grows (fst st) (fst st') /\ (repoints o = false -> keeps_refs (fst st) (fst st')).
Proof.
  destruct st as [h s]. intros H.
  destruct (alloc_keeps h) as (AP & AL & AA & AC & AK).
  destruct o; cbn [Api.step] in H;
  try (apply on_heap_same in H as (_ & H2 & _); rewrite H2; simpl fst;
       match goal with |- context [fst (?m h)] =>
         assert (Hm : struct_eq h (fst (m h)));
         [ | split; [now apply struct_grows | intros _; now apply struct_keeps]] end;
       first [ apply set_data_frame | apply get_gradient_sd | apply get_jacobian_sd | apply solve_frame
             | apply check_gradients_frame | apply psx_struct | apply psy_struct | apply padd_sd
             | apply set_struct | apply update_sd ]).
  - injection H as <- <-. simpl fst. destruct (AP (Point2_new x y)); auto.
  - injection H as <- <-. simpl fst. destruct (AL (mkLine s0 e)); auto.
  - injection H as <- <-. simpl fst. destruct (AA (Arc_new c r0 cw sa ea)); auto.
  - injection H as <- <-. simpl fst. destruct (AC (Circle_new c r0)); auto.
  - destruct (con_new_ok c); injection H as <- <-; simpl fst; auto. destruct (AK c); auto.
  - destruct (add_primitive h s c); injection H as <- <-; simpl; auto.
  - unfold add_point2 in H; simpl in H. destruct (add_primitive _ s _) as [s' [|]]; injection H as <- <-; simpl fst;
    destruct (AP (Point2_new x y)); auto.
  - unfold add_line in H; simpl in H. destruct (add_primitive _ s _) as [s' [|]]; injection H as <- <-; simpl fst;
    destruct (AL (mkLine s0 e)); auto.
  - unfold add_arc in H; simpl in H. destruct (add_primitive _ s _) as [s' [|]]; injection H as <- <-; simpl fst;
    destruct (AA (Arc_new c r0 cw sa ea)); auto.
  - destruct (add_constraint h s k); injection H as <- <-; simpl; auto.
  - unfold constrain in H. destruct (con_new_ok c); simpl in H.
    + destruct (add_constraint _ s _) as [s' [|]]; injection H as <- <-; simpl fst; destruct (AK c); auto.
    + injection H as <- <-; simpl; auto.
  - destruct (delete_primitive s id); injection H as <- <-; simpl; auto.
  - destruct (delete_constraint s k); injection H as <- <-; simpl; auto.
  - injection H as <- <-. simpl fst. destruct (set_keeps h) as (SP & _). destruct (SP l p); auto.
  - injection H as <- <-. simpl. split; [unfold grows; simpl; rewrite lset_length; lia | discriminate].
  - injection H as <- <-. simpl. split; [unfold grows; simpl; rewrite lset_length; lia | discriminate].
  - injection H as <- <-. simpl. split; [unfold grows; simpl; rewrite lset_length; lia | discriminate].
  - injection H as <- <-. simpl fst. edestruct setA_keeps; [|split; eauto]. reflexivity.
  - injection H as <- <-. simpl. split; [unfold grows; simpl; rewrite lset_length; lia | discriminate].
  - injection H as <- <-. simpl fst. destruct (set_keeps h) as (_ & _ & SC). edestruct SC; [|split; eauto]. reflexivity.
  - injection H as <- <-. simpl fst. edestruct setK_keeps; [|split; eauto]. apply con_with_params_refs.
  - destruct (same_kind _ _); injection H as <- <-; simpl; split; try discriminate; auto.
    unfold grows; simpl; rewrite lset_length; lia.
  - injection H as <- <-. simpl fst. split; [apply struct_grows, zero_struct | intros _; apply struct_keeps, zero_struct].
Qed.

(** ** Every handle is live *)
Record wf (st : state F) : Prop := {
  wf_heap : heap_ok (fst st);
  wf_cells : Forall (cell_ok (fst st)) (cells (snd st));
  wf_cons : Forall (fun k => k < length (h_cons (fst st))) (s_cons (snd st)) }.

Lemma heap_ok_cell h c : heap_ok h -> cell_ok h c -> Forall (cell_ok h) (prim_refs h c).
Proof. intros (H1&H2&H3&H4) Hc; destruct c; auto. simpl; constructor. Qed.

(** a heap step that keeps old references, where every new cell has live references *)
Lemma heap_ok_keeps h h' : heap_ok h -> grows h h' -> keeps_refs h h' ->
  (forall c, cell_ok h' c -> ~ cell_ok h c -> Forall (cell_ok h') (prim_refs h' c)) ->
  (forall k, k < length (h_cons h') -> ~ k < length (h_cons h) -> con_ok h' (getK h' k)) ->
  heap_ok h'.
Proof.
  intros H G [K1 K2] N1 N2.
  assert (X : forall c, cell_ok h' c -> Forall (cell_ok h') (prim_refs h' c)).
  { intros c Hc. assert (D : cell_ok h c \/ ~ cell_ok h c) by (destruct c; simpl; lia).
    destruct D as [D|D]; auto. rewrite K1 by auto. eapply grows_cells; eauto. now apply heap_ok_cell. }
  repeat split.
  - intros l Hl; apply (X (PLine l)); auto.
  - intros l Hl; apply (X (PArc l)); auto.
  - intros l Hl; apply (X (PCircle l)); auto.
  - intros k Hk. assert (D : k < length (h_cons h) \/ ~ k < length (h_cons h)) by lia.
    destruct D as [D|D]; auto. unfold con_ok. rewrite K2 by auto. eapply grows_cells; eauto. now apply H.
Qed.
Lemma heap_ok_struct h h' : heap_ok h -> struct_eq h h' -> heap_ok h'.
Proof.
  intros H S. apply (heap_ok_keeps h); auto; [now apply struct_grows | now apply struct_keeps | |].
  - intros c Hc Hn. exfalso. apply Hn. destruct S as (S1&S2&S3&S4&S5&_). destruct c; simpl in *; congruence.
  - intros k Hk Hn. exfalso. apply Hn. destruct S as (S1&S2&_). congruence.
Qed.
Lemma heap_ok_setlike h h' : heap_ok h -> grows h h' -> grows h' h ->
  (forall c, cell_ok h' c -> Forall (cell_ok h) (prim_refs h' c)) ->
  (forall k, k < length (h_cons h') -> Forall (cell_ok h) (con_refs (getK h' k))) -> heap_ok h'.
Proof.
  intros H G1 G2 X Y. repeat split.
  - intros l Hl; eapply grows_cells; eauto.
  - intros l Hl; eapply grows_cells; eauto.
  - intros l Hl; eapply grows_cells; eauto.
  - intros k Hk; eapply grows_cells; eauto.
Qed.
Lemma heap_ok_alloc h :
  heap_ok h ->
  (forall x, heap_ok (fst (allocP h x))) /\
  (forall x, cell_ok h (PPoint (l_start x)) -> cell_ok h (PPoint (l_end x)) -> heap_ok (fst (allocL h x))) /\
  (forall x, cell_ok h (PPoint (a_center x)) -> heap_ok (fst (allocA h x))) /\
  (forall x, cell_ok h (PPoint (c_center x)) -> heap_ok (fst (allocC h x))) /\
  (forall x, con_ok h x -> heap_ok (fst (allocK h x))).
Proof.
  intros H. destruct (alloc_keeps h) as (AP & AL & AA & AC & AK).
  assert (L : forall T (l : list T) x i d, i < length (l ++ [x]) -> ~ i < length l -> nth i (l ++ [x]) d = x).
  { intros T l x i d H1 H2. rewrite app_length in H1; simpl in H1.
    assert (i = length l) as -> by lia. rewrite app_nth2, Nat.sub_diag by lia. reflexivity. }
  repeat apply conj; intros x.
  - destruct (AP x). apply (heap_ok_keeps h); auto; simpl; try lia.
    intros c Hc Hn. destruct c; simpl in *; try constructor; contradiction.
  - intros X1 X2. destruct (AL x). apply (heap_ok_keeps h); auto; simpl; try lia.
    intros c Hc Hn. destruct c; simpl in *; try contradiction.
    unfold getL; simpl. rewrite L by auto. repeat constructor; simpl; auto.
  - intros X1. destruct (AA x). apply (heap_ok_keeps h); auto; simpl; try lia.
    intros c Hc Hn. destruct c; simpl in *; try contradiction.
    unfold getA; simpl. rewrite L by auto. repeat constructor; simpl; auto.
  - intros X1. destruct (AC x). apply (heap_ok_keeps h); auto; simpl; try lia.
    intros c Hc Hn. destruct c; simpl in *; try contradiction.
    unfold getC; simpl. rewrite L by auto. repeat constructor; simpl; auto.
  - intros X1. destruct (AK x). apply (heap_ok_keeps h); auto; simpl; try lia.
    + intros c Hc Hn. destruct c; simpl in *; contradiction.
    + intros k Hk Hn. unfold getK; simpl. rewrite L by auto. eapply grows_cells; eauto.
Qed.

Lemma same_refs_setlike h h' : heap_ok h -> grows h h' -> grows h' h ->
  keeps_refs h h' -> heap_ok h'.
Proof.
  intros H G1 G2 K. apply (heap_ok_keeps h); auto.
  - intros c Hc Hn. exfalso; apply Hn. eapply grows_cell; eauto.
  - intros k Hk Hn. exfalso. unfold grows in *; lia.
Qed.

Lemma step_heap_ok st o st' r : heap_ok (fst st) -> op_ok (fst st) o -> step st o = (st', r) -> heap_ok (fst st').
Proof.
  destruct st as [h s]. intros Hh Hok H. simpl fst in *.
  destruct (step_grows _ _ _ _ H) as [G K]. simpl fst in *.
  destruct (heap_ok_alloc h Hh) as (AP & AL & AA & AC & AK).
  destruct o; cbn [Api.step] in H; cbn [repoints] in K; cbn [op_ok] in Hok;
  try (apply on_heap_same in H as (_ & H2 & _); rewrite H2; simpl fst; apply (heap_ok_struct h); [auto|];
       first [ apply set_data_frame | apply get_gradient_sd | apply get_jacobian_sd | apply solve_frame
             | apply check_gradients_frame | apply psx_struct | apply psy_struct | apply padd_sd
             | apply set_struct | apply update_sd ]).
  - injection H as <- <-. apply (AP (Point2_new x y)); auto.
  - injection H as <- <-. apply (AL (mkLine s0 e)); apply Hok.
  - injection H as <- <-. apply (AA (Arc_new c r0 cw sa ea)); apply Hok.
  - injection H as <- <-. apply (AC (Circle_new c r0)); apply Hok.
  - destruct (con_new_ok c); injection H as <- <-; simpl fst; auto. apply (AK c); auto.
  - destruct (add_primitive h s c); injection H as <- <-; simpl; auto.
  - unfold add_point2 in H; simpl in H. destruct (add_primitive _ s _) as [s' [|]]; injection H as <- <-;
    apply (AP (Point2_new x y)); auto.
  - unfold add_line in H; simpl in H. destruct (add_primitive _ s _) as [s' [|]]; injection H as <- <-;
    apply (AL (mkLine s0 e)); apply Hok.
  - unfold add_arc in H; simpl in H. destruct (add_primitive _ s _) as [s' [|]]; injection H as <- <-;
    apply (AA (Arc_new c r0 cw sa ea)); apply Hok.
  - destruct (add_constraint h s k); injection H as <- <-; simpl; auto.
  - unfold constrain in H. destruct (con_new_ok c); simpl in H.
    + destruct (add_constraint _ s _) as [s' [|]]; injection H as <- <-; apply (AK c); auto.
    + injection H as <- <-; simpl; auto.
  - destruct (delete_primitive s id); injection H as <- <-; simpl; auto.
  - destruct (delete_constraint s k); injection H as <- <-; simpl; auto.
  - injection H as <- <-. apply (same_refs_setlike h); auto.
    simpl; unfold grows; simpl; rewrite lset_length; lia.
  - injection H as <- <-. simpl fst in *. apply (heap_ok_setlike h); auto.
    + unfold grows; simpl; rewrite lset_length; lia.
    + intros c Hc. destruct c; simpl in *; try (now apply Hh); [constructor|].
      unfold Line_set_start in *. rewrite lset_length in Hc. rewrite getL_setL.
      destruct (Nat.eqb l l0 && _); [|now apply Hh]. simpl.
      destruct Hok as [O1 O2]. destruct Hh as [Hh _]. specialize (Hh l O1). simpl in Hh. inversion Hh; subst.
      constructor; auto.
    + intros k Hk; now apply Hh.
  - injection H as <- <-. simpl fst in *. apply (heap_ok_setlike h); auto.
    + unfold grows; simpl; rewrite lset_length; lia.
    + intros c Hc. destruct c; simpl in *; try (now apply Hh); [constructor|].
      unfold Line_set_end in *. rewrite lset_length in Hc. rewrite getL_setL.
      destruct (Nat.eqb l l0 && _); [|now apply Hh]. simpl.
      destruct Hok as [O1 O2]. destruct Hh as [Hh _]. specialize (Hh l O1). simpl in Hh. inversion Hh; subst.
      constructor; auto.
    + intros k Hk; now apply Hh.
  - injection H as <- <-. simpl fst in *. apply (heap_ok_setlike h); auto.
    + unfold grows; simpl; rewrite lset_length; lia.
    + intros x Hc. destruct x; simpl in *; try (now apply Hh); [constructor|].
      unfold Arc_set_center in *. rewrite lset_length in Hc. rewrite getA_setA.
      destruct (Nat.eqb l l0 && _); [|now apply Hh]. simpl. constructor; auto. apply Hok.
    + intros k Hk; now apply Hh.
  - injection H as <- <-. apply (same_refs_setlike h); auto.
    simpl; unfold grows; simpl; rewrite lset_length; lia.
  - injection H as <- <-. simpl fst in *. apply (heap_ok_setlike h); auto.
    + unfold grows; simpl; rewrite lset_length; lia.
    + intros x Hc. destruct x; simpl in *; try (now apply Hh); [constructor|].
      unfold Circle_set_center in *. rewrite lset_length in Hc. rewrite getC_setC.
      destruct (Nat.eqb l l0 && _); [|now apply Hh]. simpl. constructor; auto. apply Hok.
    + intros k Hk; now apply Hh.
  - injection H as <- <-. apply (same_refs_setlike h); auto.
    simpl; unfold grows; simpl; rewrite lset_length; lia.
  - injection H as <- <-. apply (same_refs_setlike h); auto.
    simpl; unfold grows; simpl; rewrite lset_length; lia.
  - destruct (same_kind _ _); injection H as <- <-; auto.
    simpl fst in *. apply (heap_ok_setlike h); auto.
    + unfold grows; simpl; rewrite lset_length; lia.
    + intros x Hx; now apply (heap_ok_cell h x).
    + intros k' Hk. rewrite getK_setK. simpl in Hk; rewrite lset_length in Hk.
      destruct (Nat.eqb k k' && _); [apply Hok | now apply Hh].
  - injection H as <- <-. apply (heap_ok_struct h); auto. apply zero_struct.
Qed.

Lemma delete_primitive_cells s id s' u : delete_primitive s id = (s', ROk u) ->
  incl (cells s') (cells s) /\ s_cons s' = s_cons s.
Proof.
  unfold delete_primitive. destruct (bt_get _ _); [|discriminate]. injection 1 as <- _. simpl. split; auto.
  unfold cells; simpl. intros c Hc. apply in_map_iff in Hc as [x [<- Hx]]. apply in_map. eapply bt_remove_incl; eauto.
Qed.

Lemma step_wf st o st' r : wf st -> book (snd st) -> (s_next (snd st) + 1 < u64N)%N ->
  op_ok (fst st) o -> step st o = (st', r) -> wf st'.
Proof.
  intros [W1 W2 W3] B Hn Hok H. pose proof (step_heap_ok _ _ _ _ W1 Hok H) as H1.
  destruct (step_grows _ _ _ _ H) as [G _].
  assert (C2 : Forall (cell_ok (fst st')) (cells (snd st))) by (eapply grows_cells; eauto).
  assert (C3 : Forall (fun k => k < length (h_cons (fst st'))) (s_cons (snd st))).
  { eapply Forall_impl; [|exact W3]. intros k Hk. simpl in *. destruct G as (_&_&_&_&G). lia. }
  apply step_sk in H as K. inversion K; subst.
  - match goal with E : snd st = snd st' |- _ => split; rewrite <- ?E; auto end.
  - pose proof H0 as E. apply add_primitive_ok in E as (E1 & E2 & E3 & E4 & E5 & E6); auto.
    split; auto; [|rewrite E4; auto]. unfold cells. rewrite E2, map_app. apply Forall_app; split; auto.
    simpl. constructor; [|constructor].
    destruct H2 as [[-> _]|(l & -> & D)]; [eapply grows_cell; eauto|].
    destruct st as [h s]. cbn [Api.step] in H.
    destruct D as [[(x & y & ->) ->]|[[(x & y & ->) ->]|[(x & y & z & w & v & ->) ->]]].
    + unfold add_point2 in H; simpl in H. destruct (add_primitive _ s _) as [s'' [|]]; simpl in H; [|discriminate]; injection H as <- <-; simpl.
      rewrite app_length; simpl; lia.
    + unfold add_line in H; simpl in H. destruct (add_primitive _ s _) as [s'' [|]]; simpl in H; [|discriminate]; injection H as <- <-; simpl.
      rewrite app_length; simpl; lia.
    + unfold add_arc in H; simpl in H. destruct (add_primitive _ s _) as [s'' [|]]; simpl in H; [|discriminate]; injection H as <- <-; simpl.
      rewrite app_length; simpl; lia.
  - pose proof H0 as E. apply add_constraint_ok in E as (E1 & E2 & E3 & E4 & E5).
    split; auto; [unfold cells; rewrite E1; auto|]. rewrite E3. apply Forall_app; split; auto.
    constructor; [|constructor]. destruct H3 as [-> | (c & -> & ->)].
    + simpl in Hok. destruct G as (_&_&_&_&G). lia.
    + destruct st as [h s]. cbn [Api.step] in H. unfold constrain in H. destruct (con_new_ok c); simpl in H; [|discriminate].
      destruct (add_constraint _ s _) as [s'' [|]]; simpl in H; [|discriminate]; injection H as <- <-; simpl. rewrite app_length; simpl; lia.
  - apply delete_primitive_cells in H0 as [D1 D2]. split; auto; [|rewrite D2; auto].
    eapply incl_Forall; eauto.
  - unfold delete_constraint in H0. injection H0 as E0 _. split; rewrite <- ?E0; simpl; auto.
    eapply incl_Forall; [|exact C3]. intros x Hx. apply filter_In in Hx; tauto.
Qed.

Lemma wf_init : wf init.
Proof. split; simpl; try constructor; simpl; try lia. repeat split; simpl; try lia. Qed.

Lemma run_wf st os rs st' : run st os rs st' -> wf st -> book (snd st) ->
  (s_next (snd st) + N.of_nat (length os) < u64N)%N -> wf st'.
Proof.
  induction 1 as [st|st o st1 r os rs st' Hok Hs Hr IH]; intros W B Hn; auto.
  cbn [length] in *. rewrite Nat2N.inj_succ in *.
  destruct (skstep_book _ _ _ _ _ (step_sk _ _ _ _ _ Hs) ltac:(lia) B) as [B1 L1].
  apply IH; auto; try lia. eapply step_wf; eauto; lia.
Qed.

(** ** Reference closure *)
Definition closed (st : state F) : Prop :=
  (forall c r, In c (cells (snd st)) -> In r (prim_refs (fst st) c) -> In r (cells (snd st))) /\
  (forall k r, In k (s_cons (snd st)) -> In r (con_refs (getK (fst st) k)) -> In r (cells (snd st))).

Lemma step_closed st o st' r : wf st -> book (snd st) -> (s_next (snd st) + 1 < u64N)%N ->
  op_ok (fst st) o -> step st o = (st', r) ->
  repoints o = false -> (forall id, o <> DeletePrimitive id) -> closed st -> closed st'.
Proof.
  intros W B Hn Hok H Hr Hd [C1 C2].
  destruct (step_grows _ _ _ _ H) as [G K]. destruct (K Hr) as [K1 K2].
  destruct W as [W1 W2 W3]. rewrite Forall_forall in W2, W3.
  assert (D1 : forall c r, In c (cells (snd st)) -> In r (prim_refs (fst st') c) -> In r (cells (snd st))).
  { intros c x Hc Hx. rewrite K1 in Hx; eauto. }
  assert (D2 : forall k r, In k (s_cons (snd st)) -> In r (con_refs (getK (fst st') k)) -> In r (cells (snd st))).
  { intros k x Hk Hx. rewrite K2 in Hx; eauto. }
  apply step_sk in H as S. inversion S; subst.
  - match goal with E : snd st = snd st' |- _ => split; rewrite <- ?E; auto end.
  - pose proof H0 as E. apply add_primitive_ok in E as (E1 & E2 & E3 & E4 & E5 & E6); auto.
    rewrite Forall_forall in E6.
    assert (X : forall x, In x (cells (snd st')) <-> In x (cells (snd st)) \/ x = c).
    { intros x. unfold cells. rewrite E2, map_app, in_app_iff. simpl. intuition. }
    split.
    + intros y x Hy Hx. rewrite X in Hy |- *. destruct Hy as [Hy| ->]; eauto.
    + intros k x Hk Hx. rewrite X. rewrite E4 in Hk. eauto.
  - pose proof H0 as E. apply add_constraint_ok in E as (E1 & E2 & E3 & E4 & E5). rewrite Forall_forall in E5.
    assert (X : cells (snd st') = cells (snd st)) by (unfold cells; now rewrite E1).
    unfold closed. rewrite X, E3. split; [auto|]. intros k' x Hk Hx. apply in_app_or in Hk as [Hk|[<-|[]]]; eauto.
  - exfalso; eapply Hd; reflexivity.
  - unfold delete_constraint in H0. injection H0 as E0 _. split; rewrite <- ?E0; simpl; auto.
    intros k' x Hk. apply filter_In in Hk as [Hk _]. eauto.
Qed.
Lemma run_closed st os rs st' : run st os rs st' -> wf st -> book (snd st) ->
  (s_next (snd st) + N.of_nat (length os) < u64N)%N ->
  (forall o, In o os -> repoints o = false /\ forall id, o <> DeletePrimitive id) -> closed st -> closed st'.
Proof.
  induction 1 as [st|st o st1 r os rs st' Hok Hs Hr IH]; intros W B Hn Hall C; auto.
  cbn [length] in *. rewrite Nat2N.inj_succ in *.
  destruct (skstep_book _ _ _ _ _ (step_sk _ _ _ _ _ Hs) ltac:(lia) B) as [B1 L1].
  apply IH; auto; try lia.
  - eapply step_wf; eauto; lia.
  - intros o' Ho; apply Hall; now right.
  - destruct (Hall o (or_introl eq_refl)) as [R1 R2]. eapply step_closed; eauto; lia.
Qed.
Lemma closed_init : closed init.
Proof. split; simpl; tauto. Qed.

Lemma all_points_In (h : heap F) s id p : 
  In (id, p) (get_all_points h s) <-> exists l, In (id, PPoint l) (s_prims s) /\ p = getP h l.
Proof.
  unfold get_all_points. rewrite in_flat_map. split.
  - intros [[a b] [H1 H2]]. destruct b; simpl in H2; try tauto. destruct H2 as [H2|[]].
    injection H2 as -> <-. eauto.
  - intros [l [H ->]]. exists (id, PPoint l). split; auto. simpl; auto.
Qed.
Lemma all_points_sorted (h : heap F) s : StronglySorted N.lt (map fst (s_prims s)) ->
  StronglySorted N.lt (map fst (get_all_points h s)).
Proof.
  unfold get_all_points. induction (s_prims s) as [|[a b] m IH]; simpl; intros H; [constructor|].
  inversion H; subst. destruct b; simpl; auto. constructor; auto.
  rewrite Forall_forall in *. intros x Hx. apply H3. clear - Hx.
  apply in_map_iff in Hx as [[i p] [<- Hx]]. apply in_flat_map in Hx as [[c d] [H1 H2]].
  destruct d; simpl in H2; try tauto. destruct H2 as [H2|[]]. injection H2 as -> _.
  apply in_map_iff. eexists; split; [|exact H1]. reflexivity.
Qed.

End L.
