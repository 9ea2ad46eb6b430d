(** * Data layout, set_data / get_data (proofs for C08-C11) *)
From Coq Require Import List ZArith NArith Arith Bool Lia Sorted.
From Verif Require Import Arith Vec Prim Cons Sketch Solve Api HeapLemmas SolveLemmas BookLemmas.
Import ListNotations.

Definition dim (c : pcell) : nat :=
  match c with PPoint _ => 2 | PLine _ => 0 | PArc _ => 3 | PCircle _ => 1 end.
Definition dims (cs : list pcell) : nat := list_sum (map dim cs).

Section L.
Context {F : Type} {A : Arith F}.
Implicit Types h : heap F.

Lemma prim_data_dim h c : length (prim_data h c) = dim c.
Proof. destruct c; reflexivity. Qed.
Lemma n_dofs_dims h s : get_n_dofs h s = dims (cells s).
Proof.
  unfold get_n_dofs, dims. generalize (cells s). intros l.
  assert (H : forall n, fold_left (fun n c => n + length (prim_data h c)) l n = n + list_sum (map dim l)).
  { induction l as [|c l IH]; simpl; intros n; [lia|]. rewrite IH, prim_data_dim. lia. }
  apply H.
Qed.
Lemma flat_data_length h cs : length (flat_map (prim_data h) cs) = dims cs.
Proof. induction cs as [|c cs IH]; simpl; auto. rewrite app_length, prim_data_dim, IH. reflexivity. Qed.
Lemma get_data_length h s : length (get_data h s) = get_n_dofs h s.
Proof. rewrite n_dofs_dims. apply flat_data_length. Qed.

(** ** One cell *)
Lemma prim_set_ok c d h : all_finite d = true -> length d = dim c -> exists h', prim_set_data c d h = (h', Val tt).
Proof.
  intros H1 H2. destruct c; simpl in *; unfold Point2_set_data, Arc_set_data, Circle_set_data, mbind, massert;
  rewrite ?H1, ?H2; simpl; eexists; reflexivity.
Qed.
Lemma prim_set_panic c d h : length d = dim c -> all_finite d = false -> exists h', prim_set_data c d h = (h', Panic).
Proof.
  intros H2 H1. destruct c; simpl in *; unfold Point2_set_data, Arc_set_data, Circle_set_data, mbind, massert;
  rewrite ?H1, ?H2; simpl; try (eexists; reflexivity).
  destruct d; discriminate.
Qed.
Lemma prim_set_get c d h h' : prim_set_data c d h = (h', Val tt) -> cell_ok h c -> length d = dim c ->
  prim_data h' c = d /\ all_finite d = true.
Proof.
  intros H Hc Hl. destruct c; simpl in *; unfold Point2_set_data, Arc_set_data, Circle_set_data, mbind, massert in H;
  try (destruct (all_finite d && _) eqn:E; [|discriminate]; apply andb_true_iff in E as [E _];
       injection H as <-; split; auto).
  - rewrite getP_setP, Nat.eqb_refl. apply Nat.ltb_lt in Hc; rewrite Hc; simpl.
    destruct d as [|? [|? [|]]]; try discriminate; reflexivity.
  - destruct d; [auto|discriminate].
  - rewrite getA_setA, Nat.eqb_refl. apply Nat.ltb_lt in Hc; rewrite Hc; simpl.
    destruct d as [|? [|? [|? [|]]]]; try discriminate; reflexivity.
  - rewrite getC_setC, Nat.eqb_refl. apply Nat.ltb_lt in Hc; rewrite Hc; simpl.
    destruct d as [|? [|]]; try discriminate; reflexivity.
Qed.
Lemma prim_set_cell_ok c d h c' : cell_ok h c' -> cell_ok (fst (prim_set_data c d h)) c'.
Proof.
  pose proof (set_struct c d h) as (H1&H2&H3&H4&H5&_). destruct c'; simpl; rewrite ?H1, ?H3, ?H4, ?H5; auto.
Qed.
Lemma prim_set_same c h : all_finite (prim_data h c) = true -> prim_set_data c (prim_data h c) h = (h, Val tt).
Proof.
  intros H. destruct c; simpl in *; unfold Point2_set_data, Arc_set_data, Circle_set_data, mbind, massert;
  simpl; auto; rewrite ?H; simpl; f_equal; destruct h as [p l0 a c k].
  - unfold setP, getP; simpl. f_equal. etransitivity; [|apply (lset_same p l pt0)]. f_equal. now destruct (nth l p pt0).
  - unfold setA, getA; simpl. f_equal. etransitivity; [|apply (lset_same a l arc0)]. f_equal. now destruct (nth l a arc0).
  - unfold setC, getC; simpl. f_equal. etransitivity; [|apply (lset_same c l circ0)]. f_equal. now destruct (nth l c circ0).
Qed.

Lemma all_finite_app (u v : vec F) : all_finite (u ++ v) = all_finite u && all_finite v.
Proof. unfold all_finite. apply forallb_app. Qed.
Lemma all_finite_split (d : vec F) n : all_finite d = all_finite (firstn n d) && all_finite (skipn n d).
Proof. rewrite <- (firstn_skipn n d) at 1. apply all_finite_app. Qed.

(** ** The loop *)
Lemma loop_ok cs : forall d h, all_finite d = true -> length d = dims cs ->
  exists h', set_data_loop cs d h = (h', Val tt).
Proof.
  induction cs as [|c cs IH]; intros d h Hf Hl; simpl; [eexists; reflexivity|].
  unfold dims in Hl; simpl in Hl. fold (dims cs) in Hl.
  rewrite (all_finite_split d (dim c)) in Hf. apply andb_true_iff in Hf as [H1 H2].
  rewrite prim_data_dim. unfold mbind.
  destruct (prim_set_ok c (firstn (dim c) d) h H1) as [h1 E]; [apply firstn_length_le; lia|].
  rewrite E. apply IH; auto. rewrite skipn_length; lia.
Qed.
Lemma loop_panic cs : forall d h, all_finite d = false -> length d = dims cs ->
  exists h', set_data_loop cs d h = (h', Panic).
Proof.
  induction cs as [|c cs IH]; intros d h Hf Hl; simpl.
  - destruct d; discriminate.
  - unfold dims in Hl; simpl in Hl. fold (dims cs) in Hl.
    rewrite (all_finite_split d (dim c)) in Hf.
    rewrite prim_data_dim. unfold mbind.
    assert (L1 : length (firstn (dim c) d) = dim c) by (apply firstn_length_le; lia).
    destruct (all_finite (firstn (dim c) d)) eqn:H1.
    + destruct (prim_set_ok c (firstn (dim c) d) h H1 L1) as [h1 E].
      rewrite E. apply IH; auto. rewrite skipn_length; lia.
    + destruct (prim_set_panic c (firstn (dim c) d) h L1 H1) as [h1 E]. rewrite E. eauto.
Qed.
Lemma loop_other cs c : ~ In c cs -> forall d h, prim_data (fst (set_data_loop cs d h)) c = prim_data h c.
Proof.
  induction cs as [|x cs IH]; intros Hn d h; simpl; auto. unfold mbind.
  pose proof (set_data_other x (firstn (length (prim_data h x)) d) h c) as H.
  destruct (prim_set_data _ _ h) as [h1 [u|]]; simpl in *; rewrite ?IH; try apply H; tauto || (intros ->; tauto).
Qed.
Lemma loop_get cs : NoDup cs -> forall d h h', set_data_loop cs d h = (h', Val tt) ->
  Forall (cell_ok h) cs -> length d = dims cs -> flat_map (prim_data h') cs = d.
Proof.
  induction cs as [|c cs IH]; intros Hn d h h' H Hc Hl; simpl in *.
  - destruct d; [auto|discriminate].
  - unfold dims in Hl; simpl in Hl. fold (dims cs) in Hl.
    rewrite prim_data_dim in H. unfold mbind in H.
    inversion Hn; inversion Hc; subst.
    assert (L1 : length (firstn (dim c) d) = dim c) by (apply firstn_length_le; lia).
    pose proof (fun c' => prim_set_cell_ok c (firstn (dim c) d) h c') as K.
    destruct (prim_set_data c _ h) as [h1 [[]|]] eqn:E; [|discriminate].
    destruct (prim_set_get _ _ _ _ E) as [G _]; auto.
    pose proof (loop_other cs c H2 (skipn (dim c) d) h1) as O. rewrite H in O; simpl in O.
    rewrite O, G. rewrite (IH H3 _ _ _ H).
    + apply firstn_skipn.
    + eapply Forall_impl; [|exact H7]. intros c' Hc'. now apply K.
    + rewrite skipn_length; lia.
Qed.
Lemma loop_same cs : forall h, Forall (fun c => all_finite (prim_data h c) = true) cs ->
  set_data_loop cs (flat_map (prim_data h) cs) h = (h, Val tt).
Proof.
  induction cs as [|c cs IH]; intros h H; simpl; auto. inversion H; subst. unfold mbind.
  rewrite firstn_app, Nat.sub_diag, firstn_all, firstn_O, app_nil_r.
  rewrite skipn_app, Nat.sub_diag, skipn_all, skipn_O; simpl.
  rewrite prim_set_same by auto. auto.
Qed.

(** ** Sketch::set_data *)
Lemma set_data_ok s d h : length d = get_n_dofs h s -> all_finite d = true ->
  exists h', set_data s d h = (h', Val tt).
Proof.
  intros H1 H2. unfold set_data, mbind, massert. rewrite H1, Nat.eqb_refl. simpl.
  apply loop_ok; auto. now rewrite <- (n_dofs_dims h).
Qed.
Lemma set_data_wrong_length s d h : length d <> get_n_dofs h s -> set_data s d h = (h, Panic).
Proof. intros H. unfold set_data, mbind, massert. apply Nat.eqb_neq in H. now rewrite H. Qed.
Lemma set_data_nonfinite s d h : length d = get_n_dofs h s -> all_finite d = false ->
  exists h', set_data s d h = (h', Panic).
Proof.
  intros H1 H2. unfold set_data, mbind, massert. rewrite H1, Nat.eqb_refl. simpl.
  apply loop_panic; auto. now rewrite <- (n_dofs_dims h).
Qed.
Lemma set_data_inv s d h h' u : set_data s d h = (h', Val u) ->
  length d = get_n_dofs h s /\ all_finite d = true /\ set_data_loop (cells s) d h = (h', Val tt).
Proof.
  intros H. destruct (Nat.eq_dec (length d) (get_n_dofs h s)) as [E|E];
    [|rewrite set_data_wrong_length in H by auto; discriminate].
  destruct (all_finite d) eqn:Ef.
  - repeat split; auto. unfold set_data, mbind, massert in H. rewrite E, Nat.eqb_refl in H. simpl in H. now destruct u.
  - destruct (set_data_nonfinite s d h E Ef) as [h1 X]. congruence.
Qed.
Lemma set_get s d h h' u : NoDup (cells s) -> Forall (cell_ok h) (cells s) ->
  set_data s d h = (h', Val u) -> get_data h' s = d.
Proof.
  intros Hn Hc H. apply set_data_inv in H as (H1 & H2 & H3). unfold get_data.
  eapply loop_get; eauto. now rewrite <- (n_dofs_dims h).
Qed.
Lemma set_same s h : all_finite (get_data h s) = true -> set_data s (get_data h s) h = (h, Val tt).
Proof.
  intros H. unfold set_data, mbind, massert. rewrite get_data_length, Nat.eqb_refl. simpl.
  apply loop_same. unfold get_data in H. apply Forall_forall. intros c Hc.
  unfold all_finite in *. rewrite forallb_forall in *. intros x Hx. apply H. apply in_flat_map. eauto.
Qed.
Lemma get_data_finite_iff s h : all_finite (get_data h s) = true <-> (forall c, In c (cells s) -> all_finite (prim_data h c) = true).
Proof.
  unfold get_data, all_finite. split.
  - intros H c Hc. rewrite forallb_forall in *. intros x Hx. apply H. apply in_flat_map. eauto.
  - intros H. apply forallb_forall. intros x Hx. apply in_flat_map in Hx as [c [Hc Hx]].
    specialize (H c Hc). rewrite forallb_forall in H. auto.
Qed.

(** ** Offsets *)
Fixpoint offset_in (m : list (N * pcell)) (id : N) : nat :=
  match m with
  | [] => 0
  | (k, c) :: m' => (if (k <? id)%N then dim c else 0) + offset_in m' id
  end.
Lemma offset_get m : StronglySorted N.lt (map fst m) -> forall id c h, bt_get id m = Some c ->
  forall i, i < dim c ->
  nth_error (flat_map (prim_data h) (map snd m)) (offset_in m id + i) = nth_error (prim_data h c) i.
Proof.
  induction m as [|[k v] m IH]; simpl; intros Hs id c h H i Hi; [discriminate|].
  inversion Hs; subst. destruct (id =? k)%N eqn:E.
  - injection H as <-. apply N.eqb_eq in E; subst. rewrite N.ltb_irrefl. simpl.
    replace (offset_in m k) with 0.
    + simpl. rewrite nth_error_app1; auto. rewrite prim_data_dim; auto.
    + clear - H3. induction m as [|[a b] m IH]; simpl; auto. simpl in H3. inversion H3; subst.
      destruct (a <? k)%N eqn:E; [apply N.ltb_lt in E; lia|]. simpl. now apply IH.
  - assert (k < id)%N.
    { apply bt_get_In in H. rewrite Forall_forall in H3. apply H3. change id with (fst (id, c)). now apply in_map. }
    apply N.ltb_lt in H0; rewrite H0.
    rewrite nth_error_app2; rewrite prim_data_dim; [|lia].
    replace (dim v + offset_in m id + i - dim v) with (offset_in m id + i) by lia. auto.
Qed.

End L.
