(** * When calls panic, in any arithmetic (proofs for C81) *)
From Coq Require Import List ZArith NArith Arith Bool Lia.
From Verif Require Import Arith Vec Prim Cons Sketch Solve Api Spec SerdeSpec FiniteSpec SolverSpec PanicSpec
  HeapLemmas SolveLemmas WfLemmas DataLemmas SpecLemmas PureLemmas SearchLemmas.
Import ListNotations.

Section G.
Context {F : Type} {A : Arith F}.
Lemma some_bad_iff (v : list F) : some_bad v <-> all_finite v = false.
Proof.
  unfold some_bad, all_finite. induction v as [|x v IH]; simpl; [split; [intros (y & [] & _)|discriminate]|].
  split.
  - intros (y & [<-|Hy] & E); [now rewrite E|]. apply andb_false_iff. right. apply IH. eauto.
  - intros H. apply andb_false_iff in H as [H|H]; [eauto|]. apply IH in H as (y & Hy & E). eauto.
Qed.
Lemma firstn_fin n (v : list F) : all_finite v = true -> all_finite (firstn n v) = true.
Proof. rewrite (all_finite_split v n). intros H. now apply andb_true_iff in H as [H _]. Qed.
Lemma skipn_fin n (v : list F) : all_finite v = true -> all_finite (skipn n v) = true.
Proof. rewrite (all_finite_split v n). intros H. now apply andb_true_iff in H as [_ H]. Qed.
Lemma padd_panic l g (h : heap F) : snd (Point2_add_to_gradient l g h) = Panic <-> all_finite g = false.
Proof. unfold Point2_add_to_gradient, mbind, massert. destruct (all_finite g); simpl; split; congruence. Qed.
Lemma padd_val l g (h : heap F) : all_finite g = true -> exists h', Point2_add_to_gradient l g h = (h', Val tt).
Proof. intros E. unfold Point2_add_to_gradient, mbind, massert. rewrite E. simpl. eexists. reflexivity. Qed.
Lemma add_panic t g (h : heap F) : snd (add_to_gradient t g h) = Panic <-> all_finite g = false.
Proof.
  destruct t as [l|l|l]; cbn [add_to_gradient].
  - apply padd_panic.
  - unfold Line_add_to_gradient, mbind at 1, massert. destruct (all_finite g) eqn:E; [|simpl; split; congruence].
    cbn [mret]. unfold mbind. destruct (padd_val (l_start (getL h l)) (firstn 2 g) h (firstn_fin _ _ E)) as [h1 ->].
    rewrite padd_panic. rewrite firstn_fin by now apply skipn_fin. split; congruence.
  - unfold Arc_add_to_gradient, mbind at 1, massert. destruct (all_finite g) eqn:E; [|simpl; split; congruence].
    cbn [mret]. unfold mbind. destruct (padd_val (a_center (getA h l)) (firstn 2 g) h (firstn_fin _ _ E)) as [h1 ->].
    simpl. split; congruence.
Qed.
Lemma rows_panic (rows : list (gtarget * vec F)) : forall h, snd (mfor rows (fun tr => add_to_gradient (fst tr) (snd tr)) h) = Panic <->
  exists t row, In (t, row) rows /\ some_bad row.
Proof.
  induction rows as [|[t g] rows IH]; intros h; simpl; [split; [discriminate|intros (t & r & [] & _)]|].
  unfold mbind. pose proof (add_panic t g h) as P. destruct (add_to_gradient t g h) as [h1 [u|]]; simpl in *.
  - rewrite IH. split.
    + intros (t' & r & H & B). eauto.
    + intros (t' & r & [E|H] & B); [|eauto]. injection E as <- <-. apply some_bad_iff, P in B. discriminate.
  - split; auto. intros _. exists t, g. split; [now left|]. now apply some_bad_iff, P.
Qed.
Lemma update_panic (h : heap F) c : snd (update_gradient c h) = Panic <-> bad_rows h c.
Proof. apply rows_panic. Qed.
Lemma bad_sd_rows (h h' : heap F) c : sdeq h h' -> bad_rows h' c <-> bad_rows h c.
Proof. intros S. unfold bad_rows. now rewrite (sdg_rows _ _ _ S). Qed.
Lemma cons_panic (h : heap F) ks : forall h1, sdeq h h1 ->
  snd (mfor ks (fun k h => update_gradient (getK h k) h) h1) = Panic <-> exists k, In k ks /\ bad_rows h (getK h k).
Proof.
  induction ks as [|k ks IH]; intros h1 S; simpl; [split; [discriminate|intros (k & [] & _)]|].
  unfold mbind. pose proof (update_panic h1 (getK h1 k)) as P. pose proof (update_sd (getK h1 k) h1) as S1.
  rewrite (bad_sd_rows _ _ _ S), (struct_getK _ _ _ (proj1 S)) in P. rewrite (struct_getK _ _ _ (proj1 S)) in *.
  destruct (update_gradient (getK h k) h1) as [h2 [u|]]; simpl in *.
  - rewrite IH by (eapply sd_pre; eauto). split.
    + intros (k' & H & B). eauto.
    + intros (k' & [<-|H] & B); [|eauto]. apply P in B. discriminate.
  - split; auto. intros _. exists k. split; [now left|]. now apply P.
Qed.
Lemma jac_panic (h : heap F) s ks : forall h1, sdeq h h1 ->
  snd (jacobian_rows s ks h1) = Panic <-> exists k, In k ks /\ bad_rows h (getK h k).
Proof.
  induction ks as [|k ks IH]; intros h1 S; simpl; [split; [discriminate|intros (k & [] & _)]|].
  assert (Z : sdeq h (zero_all s h1)) by (eapply sd_pre; [exact S | apply zero_all_sd]).
  unfold mbind at 1. pose proof (update_panic (zero_all s h1) (getK (zero_all s h1) k)) as P.
  pose proof (update_sd (getK (zero_all s h1) k) (zero_all s h1)) as S1.
  rewrite (bad_sd_rows _ _ _ Z), (struct_getK _ _ _ (proj1 Z)) in P. rewrite (struct_getK _ _ _ (proj1 Z)) in *.
  destruct (update_gradient (getK h k) (zero_all s h1)) as [h2 [u|]]; simpl in *.
  - unfold mbind. assert (S2 : sdeq h h2) by (eapply sd_pre; eauto). specialize (IH h2 S2).
    destruct (jacobian_rows s ks h2) as [h3 [rows|]]; simpl in *.
    + split; [discriminate|]. intros (k' & [<-|H] & B); [apply P in B; discriminate|]. assert (X : Val rows = Panic) by (apply IH; eauto). discriminate.
    + split; auto. intros _. destruct (proj1 IH eq_refl) as (k' & H & B). eauto.
  - split; auto. intros _. exists k. split; [now left|]. now apply P.
Qed.
Lemma gradient_panic (h : heap F) s h' r : get_gradient s h = (h', r) ->
  (r = Panic <-> (exists k, In k (s_cons s) /\ bad_rows h (getK h k)) \/ (exists c, In c (cells s) /\ some_bad (prim_grad h' c))).
Proof.
  unfold get_gradient, mbind at 1. pose proof (cons_panic h (s_cons s) (zero_all s h) (zero_all_sd s h)) as P.
  destruct (mfor _ _ _) as [h1 [u|]]; simpl in *.
  - unfold mbind, massert. destruct (forallb _ _) eqn:E; simpl; intros EQ; injection EQ as <- <-.
    + split; [discriminate|]. intros [B|(c & Hc & B)]; [now apply P in B|]. rewrite forallb_forall in E.
      apply some_bad_iff in B. cbn [fst] in B. rewrite E in B by auto. discriminate.
    + split; auto. intros _. right.
      assert (G : forall l, forallb (fun c => all_finite (prim_grad h1 c)) l = false -> exists c, In c l /\ some_bad (prim_grad h1 c)).
      { induction l as [|c l IH]; simpl; [discriminate|]. intros X. apply andb_false_iff in X as [X|X].
        - exists c. split; [now left|]. now apply some_bad_iff.
        - destruct (IH X) as (c' & H1 & H2). eauto. }
      now apply G.
  - intros EQ; injection EQ as <- <-. split; auto. intros _. left. now apply P.
Qed.
Lemma con_new_bad (c : con F) : con_new_ok c = false <-> some_bad (con_params c).
Proof.
  rewrite some_bad_iff. unfold all_finite. destruct c; simpl; rewrite ?andb_true_r; split; auto; discriminate.
Qed.
Lemma prim_set_panics c v (h : heap F) : snd (prim_set_data c v h) = Panic <->
  match c with PLine _ => False | _ => length v <> n_params c \/ some_bad v end.
Proof.
  destruct c; cbn [prim_set_data n_params]; rewrite ?some_bad_iff; unfold Point2_set_data, Arc_set_data, Circle_set_data, mbind, massert;
  try (destruct (all_finite v && _) eqn:E; simpl;
   [apply andb_true_iff in E as [E1 E2]; apply Nat.eqb_eq in E2; split; [discriminate|intros [H|H]; [congruence|congruence]]
   |split; auto; intros _; apply andb_false_iff in E as [E|E]; [now right|left; now apply Nat.eqb_neq]]).
  simpl. split; [discriminate|tauto].
Qed.
Lemma C81_lemma (pinv : mat F -> F -> pinv_res (mat F)) h s o h' s' r : valid h s -> step pinv (h, s) o = ((h', s'), r) ->
  match o with Solve _ | CheckGradients _ _ _ => False | _ => True end -> (r = RetPanic <-> why_panic o h h' s).
Proof.
  intros V E Ho.
  assert (ON : forall T (m : M F T) f, (forall x, f x <> RetPanic) -> on_heap m f (h, s) = ((h', s'), r) -> (r = RetPanic <-> snd (m h) = Panic)).
  { intros T m f Hf X. unfold on_heap in X. cbn [fst snd] in X. destruct (m h) as [h1 [x|]]; injection X as <- <- <-; cbn [snd]; split; try congruence. }
  assert (OF : forall T (f : T -> ret F) x, (forall y, f y <> RetPanic) -> of_res f x <> RetPanic).
  { intros T f [y|e] Hf; cbn [of_res]; [apply Hf | discriminate]. }
  destruct o; try contradiction; cbn [step why_panic] in *.
  - unfold allocP in E. injection E as <- <- <-. split; [discriminate | tauto].
  - unfold allocL in E. injection E as <- <- <-. split; [discriminate | tauto].
  - unfold allocA in E. injection E as <- <- <-. split; [discriminate | tauto].
  - unfold allocC in E. injection E as <- <- <-. split; [discriminate | tauto].
  - rewrite <- con_new_bad. unfold allocK in E. destruct (con_new_ok c); injection E as <- <- <-; split; congruence.
  - destruct (add_primitive _ _ _) as [s1 x]. injection E as <- <- <-. split; [|tauto]. intros X. apply OF in X; [tauto | discriminate].
  - destruct (add_point2 _ _ _ _) as [[h1 s1] x0]. injection E as <- <- <-. split; [|tauto]. intros X. apply OF in X; [tauto | discriminate].
  - destruct (add_line _ _ _ _) as [[h1 s1] x0]. injection E as <- <- <-. split; [|tauto]. intros X. apply OF in X; [tauto | discriminate].
  - destruct (add_arc _ _ _ _ _ _ _) as [[h1 s1] x0]. injection E as <- <- <-. split; [|tauto]. intros X. apply OF in X; [tauto | discriminate].
  - destruct (add_constraint _ _ _) as [s1 x0]. injection E as <- <- <-. split; [|tauto]. intros X. apply OF in X; [tauto | discriminate].
  - rewrite <- con_new_bad. unfold constrain in E. destruct (con_new_ok c); cbn [negb] in E.
    + destruct (allocK h c) as [h1 k]. destruct (add_constraint _ _ _) as [s1 [x|e]]; injection E as <- <- <-; split; discriminate.
    + injection E as <- <- <-. split; auto.
  - destruct (delete_primitive _ _) as [s1 x0]. injection E as <- <- <-. split; [|tauto]. intros X. apply OF in X; [tauto | discriminate].
  - destruct (delete_constraint _ _) as [s1 x0]. injection E as <- <- <-. split; [|tauto]. intros X. apply OF in X; [tauto | discriminate].
  - refine (iff_trans (ON _ _ _ _ E) _); [discriminate|]. rewrite <- (C09_panic h s v). destruct (set_data s v h) as [h1 o]. cbn [snd].
    split; [intros ->; eauto | intros (h2 & X); congruence].
  - unfold on_heap in E. cbn [fst snd] in E. destruct (get_gradient s h) as [h1 o] eqn:G. pose proof (gradient_panic _ _ _ _ G) as P.
    assert (EH : h' = h1 /\ (r = RetPanic <-> o = Panic)) by (destruct o; injection E as <- <- <-; split; auto; split; congruence).
    destruct EH as [-> ->]. rewrite P. split; (intros [X|(c & X & Y)]; [now left | right; exists c; split; [now apply (valid_reg _ _ _ V)|auto]]).
  - refine (iff_trans (ON _ _ _ _ E) _); [discriminate|]. apply jac_panic. apply pre_refl, sd_pre.
  - refine (iff_trans (ON _ _ _ _ E) _); [discriminate|]. unfold Point2_set_x, mbind, massert. destruct (ffin x); simpl; split; congruence.
  - refine (iff_trans (ON _ _ _ _ E) _); [discriminate|]. unfold Point2_set_y, mbind, massert. destruct (ffin y); simpl; split; congruence.
  - refine (iff_trans (ON _ _ _ _ E) _); [discriminate|]. rewrite some_bad_iff. apply padd_panic.
  - injection E as <- <- <-. split; [discriminate | tauto].
  - injection E as <- <- <-. split; [discriminate | tauto].
  - injection E as <- <- <-. split; [discriminate | tauto].
  - injection E as <- <- <-. split; [discriminate | tauto].
  - injection E as <- <- <-. split; [discriminate | tauto].
  - injection E as <- <- <-. split; [discriminate | tauto].
  - injection E as <- <- <-. split; [discriminate | tauto].
  - injection E as <- <- <-. split; [discriminate | tauto].
  - destruct (same_kind _ _); injection E as <- <- <-; split; congruence.
  - refine (iff_trans (ON _ _ _ _ E) _); [discriminate|]. apply prim_set_panics.
  - injection E as <- <- <-. split; [discriminate | tauto].
  - refine (iff_trans (ON _ _ _ _ E) _); [discriminate|]. apply update_panic.
Qed.
End G.
