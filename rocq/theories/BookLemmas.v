(** * Bookkeeping of ids, primitives and constraints (proofs for C01-C07) *)
From Coq Require Import List ZArith NArith Arith Bool Lia Sorted.
From Verif Require Import Arith Vec Prim Cons Sketch Solve Api HeapLemmas SolveLemmas.
Import ListNotations.

(** ** The map *)
Lemma bt_get_insert k v m k' :
  bt_get k' (bt_insert k v m) = if (k' =? k)%N then Some v else bt_get k' m.
Proof.
  induction m as [|[a b] m IH]; simpl; auto.
  destruct (k <? a)%N eqn:E1; simpl.
  - destruct (k' =? k)%N eqn:E; auto.
  - destruct (k =? a)%N eqn:E2; simpl.
    + apply N.eqb_eq in E2; subst. destruct (k' =? a)%N; auto.
    + rewrite IH. destruct (k' =? a)%N eqn:E3; auto.
      apply N.eqb_eq in E3; subst. rewrite N.eqb_sym, E2; auto.
Qed.
Lemma bt_get_In k v m : bt_get k m = Some v -> In (k, v) m.
Proof.
  induction m as [|[a b] m IH]; simpl; [discriminate|].
  destruct (k =? a)%N eqn:E; intros H.
  - apply N.eqb_eq in E; subst; left; congruence.
  - right; auto.
Qed.
Lemma bt_In_get k v m : NoDup (map fst m) -> In (k, v) m -> bt_get k m = Some v.
Proof.
  induction m as [|[a b] m IH]; simpl; [tauto|]. intros Hn [H|H].
  - injection H as -> ->. now rewrite N.eqb_refl.
  - inversion Hn; subst. destruct (k =? a)%N eqn:E; auto.
    apply N.eqb_eq in E; subst. exfalso. apply H2. change a with (fst (a, v)). now apply in_map.
Qed.
Lemma bt_insert_last k v m : Forall (fun x => (x < k)%N) (map fst m) -> bt_insert k v m = m ++ [(k, v)].
Proof.
  induction m as [|[a b] m IH]; simpl; auto. intros H; inversion H; subst.
  destruct (k <? a)%N eqn:E1; [apply N.ltb_lt in E1; lia|].
  destruct (k =? a)%N eqn:E2; [apply N.eqb_eq in E2; lia|]. now rewrite IH.
Qed.
Lemma bt_get_remove k m k' : NoDup (map fst m) ->
  bt_get k' (bt_remove k m) = if (k' =? k)%N then None else bt_get k' m.
Proof.
  induction m as [|[a b] m IH]; simpl; intros Hn; [now destruct (k' =? k)%N|].
  inversion Hn; subst. destruct (k =? a)%N eqn:E; simpl.
  - apply N.eqb_eq in E; subst. destruct (k' =? a)%N eqn:E1; auto.
    apply N.eqb_eq in E1; subst. destruct (bt_get a m) eqn:G; auto.
    apply bt_get_In in G. exfalso. apply H1. change a with (fst (a, p)). now apply in_map.
  - rewrite IH by auto. destruct (k' =? a)%N eqn:E1; auto.
    apply N.eqb_eq in E1; subst. rewrite N.eqb_sym, E; auto.
Qed.
Lemma bt_remove_incl k m x : In x (bt_remove k m) -> In x m.
Proof. induction m as [|[a b] m IH]; simpl; [tauto|]. destruct (k =? a)%N; simpl; tauto. Qed.
Lemma bt_remove_sorted k m : StronglySorted N.lt (map fst m) -> StronglySorted N.lt (map fst (bt_remove k m)).
Proof.
  induction m as [|[a b] m IH]; simpl; intros H; [constructor|]. inversion H; subst.
  destruct (k =? a)%N; simpl; auto. constructor; auto.
  rewrite Forall_forall in *. intros x Hx. apply H3. apply in_map_iff in Hx as [y [<- Hy]].
  apply in_map. eapply bt_remove_incl; eauto.
Qed.
Lemma bt_remove_nodup k m : NoDup (map snd m) -> NoDup (map snd (bt_remove k m)).
Proof.
  induction m as [|[a b] m IH]; simpl; intros H; [constructor|]. inversion H; subst.
  destruct (k =? a)%N; simpl; auto. constructor; auto.
  intros Hx. apply H2. apply in_map_iff in Hx as [y [<- Hy]]. apply in_map. eapply bt_remove_incl; eauto.
Qed.
Lemma sorted_nodup (l : list N) : StronglySorted N.lt l -> NoDup l.
Proof.
  induction l; intros H; constructor; inversion H; subst; auto.
  intros Hi. rewrite Forall_forall in H3. specialize (H3 _ Hi). lia.
Qed.
Lemma sorted_snoc (l : list N) k : StronglySorted N.lt l -> Forall (fun x => (x < k)%N) l ->
  StronglySorted N.lt (l ++ [k]).
Proof.
  induction l; intros H G; simpl; [repeat constructor|]. inversion H; inversion G; subst.
  constructor; auto. apply Forall_app; split; auto.
Qed.

Lemma has_prim_In s c : has_prim s c = true <-> In c (cells s).
Proof.
  unfold has_prim, cells. rewrite existsb_exists. split.
  - intros [x [Hx E]]. apply pcell_eqb_eq in E; subst. now apply in_map.
  - intros H. apply in_map_iff in H as [x [<- Hx]]. exists x; split; auto. apply pcell_eqb_refl.
Qed.
Lemma has_prim_nIn s c : has_prim s c = false <-> ~ In c (cells s).
Proof. rewrite <- has_prim_In. destruct (has_prim s c); split; congruence. Qed.
Lemma has_con_In s k : has_con s k = true <-> In k (s_cons s).
Proof.
  unfold has_con. rewrite existsb_exists. split.
  - intros [x [Hx E]]. apply Nat.eqb_eq in E; now subst.
  - intros H; exists k; split; auto. apply Nat.eqb_refl.
Qed.
Lemma has_con_nIn s k : has_con s k = false <-> ~ In k (s_cons s).
Proof. rewrite <- has_con_In. destruct (has_con s k); split; congruence. Qed.

Lemma filter_nodup {T} (f : T -> bool) l : NoDup l -> NoDup (filter f l).
Proof.
  induction l; simpl; intros H; auto. inversion H; subst. destruct (f a); auto.
  constructor; auto. intros Hi; apply filter_In in Hi; tauto.
Qed.
Lemma nodup_snoc {T} (l : list T) x : NoDup l -> ~ In x l -> NoDup (l ++ [x]).
Proof.
  induction l; simpl; intros H G; [repeat constructor; auto|]. inversion H; subst.
  constructor; [|apply IHl; tauto]. rewrite in_app_iff; simpl. intuition.
Qed.

Definition u64N := u64_max1.
Lemma u64_succ_small n : (n + 1 < u64N)%N -> u64_succ n = (n + 1)%N.
Proof. intros; unfold u64_succ. apply N.mod_small; auto. Qed.
Lemma u64_pred_succ n : (n + 1 < u64N)%N -> u64_pred (n + 1) = n.
Proof.
  intros H; unfold u64_pred. unfold u64N in H.
  replace (n + 1 + (u64_max1 - 1))%N with (n + 1 * u64_max1)%N by (unfold u64_max1 in *; lia).
  rewrite N.mod_add by (unfold u64_max1; lia). apply N.mod_small. lia.
Qed.

(** ** Invariant of one sketch *)
Record book (s : sketch) : Prop := {
  bk_sorted : StronglySorted N.lt (map fst (s_prims s));
  bk_below : Forall (fun x => (x < s_next s)%N) (map fst (s_prims s));
  bk_nodup : NoDup (cells s);
  bk_cons : NoDup (s_cons s) }.

Lemma book_keys s : book s -> NoDup (map fst (s_prims s)).
Proof. intros B; apply sorted_nodup, B. Qed.
Lemma book_new : book sketch_new.
Proof. repeat constructor. Qed.

Section L.
Context {F : Type} {A : Arith F}.
Variable pinv : mat F -> F -> pinv_res (mat F).
Notation step := (step pinv).
Notation run := (run pinv).

Lemma add_primitive_ok h s c s' id :
  add_primitive h s c = (s', ROk id) -> (s_next s + 1 < u64N)%N -> book s ->
  id = s_next s /\ s_prims s' = s_prims s ++ [(id, c)] /\ s_next s' = (s_next s + 1)%N /\
  s_cons s' = s_cons s /\ ~ In c (cells s) /\ Forall (fun r => In r (cells s)) (prim_refs h c).
Proof.
  unfold add_primitive. intros H Hn B.
  destruct (forallb _ _) eqn:E1; simpl in H; [|discriminate].
  destruct (has_prim s c) eqn:E2; [discriminate|]. injection H as <- <-. cbn [s_prims s_next s_cons].
  rewrite u64_succ_small, u64_pred_succ by auto. rewrite bt_insert_last by apply B.
  repeat split; auto.
  - now apply has_prim_nIn.
  - apply Forall_forall. rewrite forallb_forall in E1. intros x Hx. apply has_prim_In; auto.
Qed.
Lemma add_primitive_err (h : heap F) (s : sketch) c s' e :
  add_primitive h s c = (s', RErr e) -> s' = s /\
  ((e = MissingSketchReferences /\ ~ Forall (fun r => In r (cells s)) (prim_refs h c)) \/
   (e = PrimitiveAlreadyInSketch /\ Forall (fun r => In r (cells s)) (prim_refs h c) /\ In c (cells s))).
Proof.
  unfold add_primitive.
  destruct (forallb _ _) eqn:E1; simpl.
  - assert (Forall (fun r => In r (cells s)) (prim_refs h c)).
    { apply Forall_forall. rewrite forallb_forall in E1. intros x Hx. apply has_prim_In; auto. }
    destruct (has_prim s c) eqn:E2; [|discriminate]. injection 1 as <- <-. split; auto.
    right; split; auto; split; auto. now apply has_prim_In.
  - injection 1 as <- <-. split; auto. left; split; auto. intros G.
    rewrite Forall_forall in G.
    assert (forallb (has_prim s) (prim_refs h c) = true); [|congruence].
    apply forallb_forall. intros x Hx. apply has_prim_In; auto.
Qed.
Lemma add_constraint_ok (h : heap F) s k s' u :
  add_constraint h s k = (s', ROk u) ->
  s_prims s' = s_prims s /\ s_next s' = s_next s /\ s_cons s' = s_cons s ++ [k] /\
  ~ In k (s_cons s) /\ Forall (fun r => In r (cells s)) (con_refs (getK h k)).
Proof.
  unfold add_constraint. intros H.
  destruct (forallb _ _) eqn:E1; simpl in H; [|discriminate].
  destruct (has_con s k) eqn:E2; [discriminate|]. injection H as <-. simpl.
  repeat split; auto.
  - now apply has_con_nIn.
  - apply Forall_forall. rewrite forallb_forall in E1. intros x Hx. apply has_prim_In; auto.
Qed.
Lemma add_constraint_err (h : heap F) s k s' e :
  add_constraint h s k = (s', RErr e) -> s' = s /\
  ((e = MissingSketchReferences /\ ~ Forall (fun r => In r (cells s)) (con_refs (getK h k))) \/
   (e = ConstraintAlreadyInSketch /\ Forall (fun r => In r (cells s)) (con_refs (getK h k)) /\ In k (s_cons s))).
Proof.
  unfold add_constraint.
  destruct (forallb _ _) eqn:E1; simpl.
  - assert (Forall (fun r => In r (cells s)) (con_refs (getK h k))).
    { apply Forall_forall. rewrite forallb_forall in E1. intros x Hx. apply has_prim_In; auto. }
    destruct (has_con s k) eqn:E2; [|discriminate]. injection 1 as <- <-. split; auto.
    right; split; auto; split; auto. now apply has_con_In.
  - injection 1 as <- <-. split; auto. left; split; auto. intros G.
    rewrite Forall_forall in G.
    assert (forallb (has_prim s) (con_refs (getK h k)) = true); [|congruence].
    apply forallb_forall. intros x Hx. apply has_prim_In; auto.
Qed.

(** ** What one call does to the sketch *)
Inductive skstep (h' : heap F) (s : sketch) : sketch -> op F -> ret F -> Prop :=
| sk_same o r : (forall id, r <> RetId id) -> skstep h' s s o r
| sk_add c s' id o r :
    add_primitive h' s c = (s', ROk id) ->
    (o = AddPrimitive c /\ r = RetId id \/
     exists l, r = RetLoc l /\ ((exists x y, o = AddPoint2 x y) /\ c = PPoint l \/
       (exists a b, o = AddLine a b) /\ c = PLine l \/
       (exists a b d e f, o = AddArc a b d e f) /\ c = PArc l)) ->
    skstep h' s s' o r
| sk_con k s' u o r :
    add_constraint h' s k = (s', ROk u) -> (forall id, r <> RetId id) ->
    (o = AddConstraint k \/ exists c, o = Constrain c /\ r = RetLoc k) -> skstep h' s s' o r
| sk_del id s' u r :
    delete_primitive s id = (s', ROk u) -> (forall id, r <> RetId id) -> skstep h' s s' (DeletePrimitive id) r
| sk_delc k s' u r :
    delete_constraint s k = (s', u) -> (forall id, r <> RetId id) -> skstep h' s s' (DeleteConstraint k) r.

Lemma on_heap_same {T} (m : M F T) f st st' r :
  on_heap m f st = (st', r) -> snd st' = snd st /\ fst st' = fst (m (fst st)) /\
  ((exists x, r = f x) \/ r = RetPanic).
Proof.
  unfold on_heap. destruct (m (fst st)) as [h' [x|]]; injection 1 as <- <-; simpl; eauto.
Qed.

Lemma step_sk st o st' r : step st o = (st', r) -> skstep (fst st') (snd st) (snd st') o r.
Proof.
  destruct st as [h s]. intros H.
  destruct o; simpl in H;
    try (injection H as <- <-; now constructor);
    try (apply on_heap_same in H as (H1 & H2 & H3); simpl in H1; rewrite H1; constructor;
         intros; destruct H3 as [[? ->]| ->]; discriminate).
  - destruct (con_new_ok c); injection H as <- <-; now constructor.
  - destruct (add_primitive h s c) as [s' [id0|er]] eqn:E; injection H as <- <-; simpl.
    + eapply sk_add; eauto.
    + apply add_primitive_err in E as [-> _]. now constructor.
  - unfold add_point2 in H. simpl in H.
    destruct (add_primitive _ s _) as [s' [id0|er]] eqn:E; injection H as <- <-; simpl.
    + eapply sk_add; eauto. right. eexists. split; [reflexivity|]. left. eauto.
    + apply add_primitive_err in E as [-> _]. now constructor.
  - unfold add_line in H. simpl in H.
    destruct (add_primitive _ s _) as [s' [id0|er]] eqn:E; injection H as <- <-; simpl.
    + eapply sk_add; eauto. right. eexists. split; [reflexivity|]. right; left. eauto.
    + apply add_primitive_err in E as [-> _]. now constructor.
  - unfold add_arc in H. simpl in H.
    destruct (add_primitive _ s _) as [s' [id0|er]] eqn:E; injection H as <- <-; simpl.
    + eapply sk_add; eauto. right. eexists. split; [reflexivity|]. right; right. eauto 10.
    + apply add_primitive_err in E as [-> _]. now constructor.
  - destruct (add_constraint h s k) as [s' [id0|er]] eqn:E; injection H as <- <-; simpl.
    + eapply sk_con; eauto; discriminate.
    + apply add_constraint_err in E as [-> _]. now constructor.
  - unfold constrain in H. destruct (con_new_ok c); simpl in H.
    + destruct (add_constraint _ s _) as [s' [id0|er]] eqn:E; injection H as <- <-; simpl.
      * eapply sk_con; eauto; discriminate.
      * apply add_constraint_err in E as [-> _]. now constructor.
    + injection H as <- <-; now constructor.
  - destruct (delete_primitive s id) as [s' [u|er]] eqn:E; injection H as <- <-; simpl.
    + eapply sk_del; eauto; discriminate.
    + unfold delete_primitive in E. destruct (bt_get _ _); [discriminate|]. injection E as <- <-. now constructor.
  - destruct (delete_constraint s k) as [s' u] eqn:E; injection H as <- <-; simpl.
    eapply sk_delc; [reflexivity | intros i; destruct (Nat.eqb _ _); discriminate].
  - destruct (same_kind _ _); injection H as <- <-; now constructor.
Qed.

Lemma skstep_book h' s s' o r : skstep h' s s' o r -> (s_next s + 1 < u64N)%N -> book s -> 
  book s' /\ (s_next s <= s_next s' <= s_next s + 1)%N.
Proof.
  intros H Hn B. inversion H; subst.
  - split; [auto|lia].
  - eapply add_primitive_ok in H0 as (E1 & E2 & E3 & E4 & E5 & E6); eauto.
    split; [|lia]. destruct B as [B1 B2 B3 B4]. split; rewrite ?E2, ?E3, ?E4, ?map_app.
    + simpl; apply sorted_snoc; auto. rewrite E1; auto.
    + apply Forall_app; split; [|repeat constructor; simpl; lia].
      eapply Forall_impl; [|exact B2]. intros; simpl in *; lia.
    + unfold cells. rewrite E2, map_app. simpl. apply nodup_snoc; auto.
    + auto.
  - eapply add_constraint_ok in H0 as (E1 & E2 & E3 & E4 & E5).
    split; [|lia]. destruct B as [B1 B2 B3 B4]. split; rewrite ?E1, ?E2, ?E3; auto.
    + unfold cells; rewrite E1; auto.
    + apply nodup_snoc; auto.
  - unfold delete_primitive in H0. destruct (bt_get _ _); [|discriminate]. injection H0 as <- _. simpl.
    split; [|lia]. destruct B as [B1 B2 B3 B4]. split; simpl; auto.
    + now apply bt_remove_sorted.
    + rewrite Forall_forall in *. intros x Hx. apply in_map_iff in Hx as [y [<- Hy]].
      apply B2. apply in_map. eapply bt_remove_incl; eauto.
    + now apply bt_remove_nodup.
  - unfold delete_constraint in H0. injection H0 as <- _; simpl.
    split; [|lia]. destruct B as [B1 B2 B3 B4]. split; simpl; auto. now apply filter_nodup.
Qed.

(** an entry only appears under the current counter and only disappears by delete_primitive *)
Lemma skstep_get h' s s' o r id : skstep h' s s' o r -> (s_next s + 1 < u64N)%N -> book s ->
  (get_primitive_by_id s id = None -> get_primitive_by_id s' id <> None -> id = s_next s /\ s_next s' = (s_next s + 1)%N) /\
  (forall c, get_primitive_by_id s id = Some c -> o <> DeletePrimitive id -> get_primitive_by_id s' id = Some c).
Proof.
  intros H Hn B. unfold get_primitive_by_id. inversion H; subst.
  - split; auto; congruence.
  - pose proof H0 as H0'. eapply add_primitive_ok in H0' as (E1 & E2 & E3 & E4 & E5 & E6); eauto.
    unfold add_primitive in H0. destruct (negb _); [discriminate|]. destruct (has_prim s c); [discriminate|].
    injection H0 as <- _. simpl in *. rewrite bt_get_insert. destruct (id =? s_next s)%N eqn:E.
    + apply N.eqb_eq in E. subst id. split; auto. intros c0 Hc. 
      exfalso. apply bt_get_In in Hc. destruct B as [_ B2 _ _]. rewrite Forall_forall in B2.
      specialize (B2 (s_next s)). assert (s_next s < s_next s)%N; [|lia]. apply B2.
      change (s_next s) with (fst (s_next s, c0)). now apply in_map.
    + split; auto; congruence.
  - eapply add_constraint_ok in H0 as (E1 & E2 & E3 & E4 & E5). rewrite E1. split; auto; congruence.
  - unfold delete_primitive in H0. destruct (bt_get id0 _); [|discriminate]. injection H0 as <- _. simpl.
    rewrite bt_get_remove by now apply book_keys. destruct (id =? id0)%N eqn:E; split; auto; try congruence.
    apply N.eqb_eq in E. congruence.
  - unfold delete_constraint in H0. injection H0 as <- _; simpl. split; auto; congruence.
Qed.

Lemma run_book st os rs st' : run st os rs st' -> book (snd st) ->
  (s_next (snd st) + N.of_nat (length os) < u64N)%N ->
  book (snd st') /\ (s_next (snd st) <= s_next (snd st') <= s_next (snd st) + N.of_nat (length os))%N.
Proof.
  induction 1 as [st|st o st1 r os rs st' Hok Hs Hr IH]; intros B Hn; [split; auto; simpl; lia|].
  cbn [length] in *. rewrite Nat2N.inj_succ in *. apply step_sk in Hs.
  destruct (skstep_book _ _ _ _ _ Hs ltac:(lia) B) as [B1 L1].
  destruct (IH B1 ltac:(lia)) as [B2 L2]. split; [auto|lia].
Qed.
Lemma run_init_book os rs st : run init os rs st -> (N.of_nat (length os) < u64N)%N ->
  book (snd st) /\ (s_next (snd st) <= N.of_nat (length os))%N.
Proof.
  intros H Hn. destruct (run_book _ _ _ _ H book_new) as [B L]; simpl in *; [lia|]. split; [auto|lia].
Qed.
Lemma run_app st os1 rs1 st1 os2 rs2 st2 :
  run st os1 rs1 st1 -> run st1 os2 rs2 st2 -> run st (os1 ++ os2) (rs1 ++ rs2) st2.
Proof. induction 1; simpl; auto. intros; econstructor; eauto. Qed.
Lemma run_snoc st os rs st1 o st2 r :
  run st os rs st1 -> op_ok (fst st1) o -> step st1 o = (st2, r) -> run st (os ++ [o]) (rs ++ [r]) st2.
Proof. intros. eapply run_app; eauto. econstructor; eauto. constructor. Qed.

(** registered ids stay below the counter; later additions use the counter *)
Lemma run_get_stable st os rs st' id c : run st os rs st' -> book (snd st) ->
  (s_next (snd st) + N.of_nat (length os) < u64N)%N ->
  get_primitive_by_id (snd st) id = Some c -> ~ In (DeletePrimitive id) os ->
  get_primitive_by_id (snd st') id = Some c.
Proof.
  induction 1 as [st|st o st1 r os rs st' Hok Hs Hr IH]; intros B Hn G Hd; [auto|].
  cbn [length] in *. rewrite Nat2N.inj_succ in *. apply step_sk in Hs.
  destruct (skstep_book _ _ _ _ _ Hs ltac:(lia) B) as [B1 L1].
  destruct (skstep_get _ _ _ _ _ id Hs ltac:(lia) B) as [_ G2].
  apply IH; auto; try lia.
  - apply G2; auto. intros ->; apply Hd; now left.
  - intros Hi; apply Hd; now right.
Qed.
Lemma get_below s id c : book s -> get_primitive_by_id s id = Some c -> (id < s_next s)%N.
Proof.
  intros B H. apply bt_get_In in H. destruct B as [_ B2 _ _]. rewrite Forall_forall in B2.
  apply B2. change id with (fst (id, c)). now apply in_map.
Qed.

Lemma C01_fresh os1 rs1 st1 os2 rs2 st2 o st3 r id c :
  run init os1 rs1 st1 -> run st1 os2 rs2 st2 ->
  (N.of_nat (length (os1 ++ os2)) + 1 < u64N)%N ->
  step st2 o = (st3, r) ->
  get_primitive_by_id (snd st2) id = None -> get_primitive_by_id (snd st3) id = Some c ->
  get_primitive_by_id (snd st1) id = None.
Proof.
  intros H1 H2 Hn Hs G2 G3. rewrite app_length, Nat2N.inj_add in Hn.
  destruct (run_init_book _ _ _ H1 ltac:(lia)) as [B1 L1].
  destruct (run_book _ _ _ _ H2 B1 ltac:(lia)) as [B2 L2].
  apply step_sk in Hs. destruct (skstep_get _ _ _ _ _ id Hs ltac:(lia) B2) as [X _].
  destruct X as [X _]; auto; [congruence|].
  destruct (get_primitive_by_id (snd st1) id) eqn:E; auto.
  apply get_below in E; auto. lia.
Qed.

Lemma ret_below st0 os rs st : book (snd st0) -> run st0 os rs st ->
  (s_next (snd st0) + N.of_nat (length os) + 1 < u64N)%N ->
  forall id, In (RetId id) rs -> (id < s_next (snd st))%N.
Proof.
  intros B0 Hr. induction Hr as [st0|st0 o st1 r os rs st' Hok Hs Hr IH]; intros Hn id Hi; [easy|].
  cbn [length] in *. rewrite Nat2N.inj_succ in *. apply step_sk in Hs.
  destruct (skstep_book _ _ _ _ _ Hs ltac:(lia) B0) as [B1 L1].
  destruct Hi as [->|Hi]; [|apply IH; auto; lia].
  destruct (run_book _ _ _ _ Hr B1 ltac:(lia)) as [B2 L2].
  inversion Hs; subst; try (exfalso; eapply H; reflexivity); try (exfalso; eapply H0; reflexivity).
  destruct H0 as [[_ H0]|[l [H0 _]]]; [|discriminate]. injection H0 as <-.
  eapply add_primitive_ok in H as (E1 & E2 & E3 & _); auto; lia.
Qed.

Lemma In_cells s c : In c (cells s) <-> exists id, In (id, c) (s_prims s).
Proof.
  unfold cells. rewrite in_map_iff. split.
  - intros [[a b] [E H]]. simpl in E. subst. eauto.
  - intros [id H]. exists (id, c); auto.
Qed.
Lemma cell_inj s id1 id2 c : NoDup (cells s) -> In (id1, c) (s_prims s) -> In (id2, c) (s_prims s) -> id1 = id2.
Proof.
  unfold cells. induction (s_prims s) as [|[a b] m IH]; simpl; [tauto|].
  intros Hn H1 H2. inversion Hn; subst.
  destruct H1 as [H1|H1], H2 as [H2|H2]; try congruence; auto.
  - injection H1 as -> ->. exfalso. apply H3. change c with (snd (id2, c)). now apply in_map.
  - injection H2 as -> ->. exfalso. apply H3. change c with (snd (id1, c)). now apply in_map.
Qed.
Lemma get_primitive_id_In s c id : get_primitive_id s c = Some id -> In (id, c) (s_prims s).
Proof.
  unfold get_primitive_id. destruct (find _ _) as [[a b]|] eqn:E; simpl; [|discriminate].
  injection 1 as ->. apply find_some in E as [E1 E2]. simpl in E2. apply pcell_eqb_eq in E2. now subst.
Qed.
Lemma get_primitive_id_iff s c id : book s ->
  (get_primitive_id s c = Some id <-> get_primitive_by_id s id = Some c).
Proof.
  intros B. split; intros H.
  - apply get_primitive_id_In in H. apply bt_In_get; auto. now apply book_keys.
  - apply bt_get_In in H. destruct (get_primitive_id s c) as [id'|] eqn:E.
    + apply get_primitive_id_In in E. f_equal. eapply cell_inj; eauto. apply B.
    + unfold get_primitive_id in E. destruct (find _ _) eqn:E1; [discriminate|].
      eapply find_none in E1; eauto. simpl in E1. rewrite pcell_eqb_refl in E1. discriminate.
Qed.

Lemma added os rs st h' c s' id :
  run init os rs st -> (N.of_nat (length os) + 1 < u64N)%N ->
  add_primitive h' (snd st) c = (s', ROk id) ->
  ~ In (RetId id) rs /\ get_primitive_by_id (snd st) id = None /\
  get_primitive_by_id s' id = Some c /\ get_primitive_id s' c = Some id /\
  (forall id', id' <> id -> get_primitive_by_id s' id' = get_primitive_by_id (snd st) id').
Proof.
  intros H Hn E.
  destruct (run_init_book _ _ _ H ltac:(lia)) as [B L].
  assert (B' : book s').
  { eapply (skstep_book h' (snd st) s' (AddPrimitive c) (RetId id)); [|lia|auto]. eapply sk_add; eauto. }
  pose proof E as E0. apply add_primitive_ok in E as (E1 & _); auto; [|lia].
  unfold add_primitive in E0. destruct (negb _); [discriminate|]. destruct (has_prim _ c); [discriminate|].
  injection E0 as E0 _.
  assert (Hg : get_primitive_by_id s' id = Some c).
  { rewrite <- E0. unfold get_primitive_by_id; simpl. rewrite bt_get_insert. subst id. now rewrite N.eqb_refl. }
  subst id. repeat split; auto.
  - intros Hi. eapply (ret_below init) in Hi; eauto; [lia | apply book_new].
  - destruct (get_primitive_by_id (snd st) (s_next (snd st))) eqn:E; auto. apply get_below in E; auto; lia.
  - apply get_primitive_id_iff; auto.
  - intros id' Hd. rewrite <- E0. unfold get_primitive_by_id; simpl. rewrite bt_get_insert.
    apply N.eqb_neq in Hd. now rewrite Hd.
Qed.

Lemma C01_returned os rs st c st' id :
  run init os rs st -> (N.of_nat (length os) + 1 < u64N)%N ->
  step st (AddPrimitive c) = (st', RetId id) ->
  ~ In (RetId id) rs /\ get_primitive_by_id (snd st) id = None /\
  get_primitive_by_id (snd st') id = Some c /\ get_primitive_id (snd st') c = Some id /\
  (forall id', id' <> id -> get_primitive_by_id (snd st') id' = get_primitive_by_id (snd st) id').
Proof.
  intros H Hn Hs. destruct st as [h s]. simpl in Hs.
  destruct (add_primitive h s c) as [s' [i|er]] eqn:E; [|discriminate].
  injection Hs as <- <-. simpl. eapply (added os rs (h, s)); eauto.
Qed.

(** same for the allocate-and-register helpers, which return the handle *)
Definition helper_cell (o : op F) (l : loc) : option pcell :=
  match o with
  | AddPoint2 _ _ => Some (PPoint l) | AddLine _ _ => Some (PLine l) | AddArc _ _ _ _ _ => Some (PArc l)
  | _ => None
  end.
Lemma C01_helper os rs st o st' l c :
  run init os rs st -> (N.of_nat (length os) + 1 < u64N)%N ->
  step st o = (st', RetLoc l) -> helper_cell o l = Some c ->
  exists id, ~ In (RetId id) rs /\ get_primitive_by_id (snd st) id = None /\
    get_primitive_by_id (snd st') id = Some c /\ get_primitive_id (snd st') c = Some id /\
    (forall id', id' <> id -> get_primitive_by_id (snd st') id' = get_primitive_by_id (snd st) id').
Proof.
  intros H Hn Hs Hc. apply step_sk in Hs as K.
  inversion K; subst.
  - exfalso. destruct st as [h s]. destruct o; try discriminate; simpl in Hs.
    + unfold add_point2 in Hs; simpl in Hs. destruct (add_primitive _ s _) as [s' [i|er]] eqn:E; [|discriminate].
      injection Hs as <- _. simpl in *. destruct (run_init_book _ _ _ H ltac:(lia)) as [B L].
      apply add_primitive_ok in E as (_ & _ & E & _); auto; simpl in *; [subst; lia | lia].
    + unfold add_line in Hs; simpl in Hs. destruct (add_primitive _ s _) as [s' [i|er]] eqn:E; [|discriminate].
      injection Hs as <- _. simpl in *. destruct (run_init_book _ _ _ H ltac:(lia)) as [B L].
      apply add_primitive_ok in E as (_ & _ & E & _); auto; simpl in *; [subst; lia | lia].
    + unfold add_arc in Hs; simpl in Hs. destruct (add_primitive _ s _) as [s' [i|er]] eqn:E; [|discriminate].
      injection Hs as <- _. simpl in *. destruct (run_init_book _ _ _ H ltac:(lia)) as [B L].
      apply add_primitive_ok in E as (_ & _ & E & _); auto; simpl in *; [subst; lia | lia].
  - assert (c0 = c).
    { destruct H1 as [[_ H1]|(l' & H1 & H2)]; [discriminate|]. injection H1 as <-.
      destruct H2 as [[(x & y & ->) ->]|[[(x & y & ->) ->]|[(x & y & z & w & v & ->) ->]]];
      simpl in Hc; congruence. }
    subst c0. exists id. eapply added; eauto.
  - destruct H2 as [-> | (x & -> & _)]; discriminate.
  - discriminate.
  - discriminate.
Qed.

End L.
