(** * The guard lists of Borrow.v fit the state model: a cell changes only under an exclusive guard *)
From Coq Require Import List ZArith NArith Arith Bool Lia.
From Verif Require Import Arith Vec Prim Cons Sketch Solve Spec ExactSpec CellSpec
  HeapLemmas SolveLemmas RestLemmas Borrow BorrowSpec BorrowLemmas.
Import ListNotations.

Section L.
Context {F : Type} {A : Arith F}.
Variable s : sketch.
Variable h0 : heap F.
Variable W : pcell -> Prop.

Definition only (h h' : heap F) : Prop :=
  struct_eq h0 h -> struct_eq h h' /\ forall c, ~ W c -> view h' c = view h c.
Lemma only_pre : preorder only.
Proof.
  split; [intros h _; split; [apply struct_pre | auto]|].
  intros a b c H G S. destruct (H S) as [S1 E1]. destruct (G (pre_trans _ struct_pre _ _ _ S S1)) as [S2 E2].
  split; [eapply struct_pre; eauto|]. intros x Hx. rewrite E2, E1; auto.
Qed.
Lemma only_parts h h' : (struct_eq h0 h -> struct_eq h h') ->
  (struct_eq h0 h -> forall c, ~ W c -> prim_data h' c = prim_data h c /\ prim_grad h' c = prim_grad h c) -> only h h'.
Proof.
  intros S E H0. specialize (S H0). split; auto. intros c Hc. destruct (E H0 c Hc) as [E1 E2]. unfold view.
  rewrite E1, E2, (struct_refs _ _ _ S). destruct c; auto. destruct S as (_&_&_&_&_&Sa&_). now rewrite (proj2 (Sa _)).
Qed.
Lemma zero_fold cs : forall h, (forall c, In c cs -> W c) -> only h (fold_left prim_zero cs h).
Proof.
  induction cs as [|x cs IH]; intros h H; simpl; [apply only_pre|].
  eapply only_pre; [|apply IH; intros; apply H; now right]. apply only_parts; [intros _; apply zero_struct|].
  intros _ c Hc. split; [apply zero_data|]. apply zero_grad_other. intros ->. apply Hc, H. now left.
Qed.
Lemma update_only k : (forall c, In c (deps h0 (getK h0 k)) -> W c) -> mpres only (fun h => update_gradient (getK h k) h).
Proof.
  intros H h. apply only_parts; [intros _; apply update_sd|]. intros S c Hc.
  split; [now apply (proj2 (update_sd (getK h k) h) c I)|]. apply update_other.
  rewrite (struct_getK _ _ _ S). unfold deps. rewrite (flat_map_ext _ (fun r => r :: prim_refs h0 r)); [auto|].
  intros r. now rewrite (struct_refs _ _ _ S).
Qed.
Lemma prim_set_only c v : W c -> mpres only (prim_set_data c v).
Proof.
  intros H h. apply only_parts; [intros _; apply set_struct|]. intros _ c' Hc. split.
  - apply set_data_other. intros ->. contradiction.
  - now apply set_grad.
Qed.
Lemma set_data_only v : (forall c, In c (cells s) -> W c) -> mpres only (set_data s v).
Proof.
  intros H h. apply only_parts; [intros _; apply set_data_frame|]. intros _ c Hc.
  destruct (set_data_frame s v h) as [[_ G] D]. split; [|now apply G]. apply D. intros X. auto.
Qed.
Lemma gradient_only : (forall c, In c (cells s) -> W c) ->
  (forall k c, In k (s_cons s) -> In c (deps h0 (getK h0 k)) -> W c) -> mpres only (get_gradient s).
Proof.
  intros H1 H2 h. unfold get_gradient. eapply only_pre; [apply (zero_fold (cells s) h H1)|].
  refine (mpres_bind _ only_pre _ _ _ _ (zero_all s h)).
  - apply mpres_for; [apply only_pre|]. intros k Hk. apply update_only. intros c. now apply H2.
  - intros _ h'. refine (mpres_bind _ only_pre _ _ _ _ h'); [apply mpres_assert, only_pre | intros _; apply mpres_ret, only_pre].
Qed.
Lemma jacobian_rows_only ks : (forall k c, In k ks -> In c (cells s) -> W c) ->
  (forall k c, In k ks -> In c (deps h0 (getK h0 k)) -> W c) -> mpres only (jacobian_rows s ks).
Proof.
  induction ks as [|k ks IH]; intros H1 H2; simpl; [apply mpres_ret, only_pre|].
  intros h. eapply only_pre; [apply (zero_fold (cells s) h); intros c; apply (H1 k); now left|].
  refine (mpres_bind _ only_pre _ _ _ _ (zero_all s h)).
  - apply update_only. intros c. apply H2. now left.
  - intros _ h'. refine (mpres_bind _ only_pre _ _ (IH _ _) _ h').
    + intros k' c Hk. apply (H1 k'). now right.
    + intros k' c Hk. apply H2. now right.
    + intros r. apply mpres_ret, only_pre.
Qed.
Lemma check_only eps k ce : (forall c, In c (cells s) -> W c) ->
  (forall k c, In k (s_cons s) -> In c (deps h0 (getK h0 k)) -> W c) -> mpres only (check_gradients s eps k ce).
Proof.
  intros H1 H2 h. refine (mpres_bind _ only_pre _ _ (gradient_only H1 H2) _ h).
  intros _ h'. refine (mpres_for _ only_pre _ _ _ h'). intros c Hc h1.
  refine (mpres_bind _ only_pre _ _ (mpres_assert _ only_pre _) _ h1). intros _.
  apply mpres_bind; [apply only_pre | | intros; apply mpres_assert, only_pre].
  generalize (prim_data h1 c) at 1. generalize (seq 0 (length (prim_data h1 c))). generalize (loss_value h' (getK h' k)).
  intros l0 is orig. induction is as [|i is IH]; simpl; [apply mpres_ret, only_pre|].
  apply mpres_bind; [apply only_pre | now apply prim_set_only, H1 |]. intros _ h2.
  refine (mpres_bind _ only_pre _ _ (prim_set_only _ _ (H1 c Hc)) _ h2). intros _.
  apply mpres_bind; [apply only_pre | apply IH |]. intros r; apply mpres_ret, only_pre.
Qed.
End L.

Section W.
Context {F : Type} {A : Arith F}.
Variable s : sketch.
Variable h : heap F.
Lemma dec_writes gs c : writes gs c \/ ~ writes gs c.
Proof.
  assert (B : forall a b : bool, {a = b} + {a <> b}) by (decide equality).
  assert (P : forall a b : cellid, {a = b} + {a <> b}).
  { intros [a|a] [b|b]; try (right; discriminate); [destruct (pcell_dec a b) | destruct (Nat.eq_dec a b)]; subst; auto; right; congruence. }
  assert (T : forall g, takes g true c \/ ~ takes g true c).
  { induction g as [x d inner IH] using guard_ind2. destruct (B x true) as [->|Hx]; [destruct (P d c) as [->|Hd]|].
    - left. constructor.
    - assert (I : (exists g, In g inner /\ takes g true c) \/ ~ exists g, In g inner /\ takes g true c).
      { clear -IH. induction inner as [|g l IHl]; [right; intros (g & [] & _)|].
        destruct (IH g) as [T|N]; [now left | left; exists g; split; auto; now left|].
        destruct IHl as [(g' & Hg & T)|N2]; [intros; apply IH; now right | left; exists g'; split; auto; now right|].
        right. intros (g' & [<-|Hg] & T); [contradiction | apply N2; eauto]. }
      destruct I as [(g & Hg & T)|N]; [left; econstructor 2; eauto|]. right. intros T. inversion T; subst; [congruence|]. apply N. eauto.
    - assert (I : (exists g, In g inner /\ takes g true c) \/ ~ exists g, In g inner /\ takes g true c).
      { clear -IH. induction inner as [|g l IHl]; [right; intros (g & [] & _)|].
        destruct (IH g) as [T|N]; [now left | left; exists g; split; auto; now left|].
        destruct IHl as [(g' & Hg & T)|N2]; [intros; apply IH; now right | left; exists g'; split; auto; now right|].
        right. intros (g' & [<-|Hg] & T); [contradiction | apply N2; eauto]. }
      destruct I as [(g & Hg & T)|N]; [left; econstructor 2; eauto|]. right. intros T. inversion T; subst; [congruence|]. apply N. eauto. }
  induction gs as [|g gs [H|H]]; [right; intros (g & [] & _) | left; destruct H as (g' & Hg & X); exists g'; split; auto; now right|].
  destruct (T g); [left; exists g; split; auto; now left|]. right. intros (g' & [<-|Hg] & X); [contradiction | apply H; exists g'; auto].
Qed.
Lemma by_only {T} gs (m : M F T) c : (forall W : pcell -> Prop, (forall x, writes gs (IPrim x) -> W x) -> mpres (only h W) m) ->
  view (fst (m h)) c <> view h c -> writes gs (IPrim c).
Proof.
  intros H N. destruct (dec_writes gs (IPrim c)) as [Y|Y]; auto. exfalso. apply N.
  destruct (H (fun x => writes gs (IPrim x)) (fun x X => X) h) as [_ E]; [apply struct_pre|]. now apply E.
Qed.
Lemma gradient_written c : view (fst (get_gradient s h)) c <> view h c -> writes (call_guards h s CGetGradient) (IPrim c).
Proof.
  apply by_only. intros W H. apply gradient_only; intros; apply H, gradient_writes; [now left | right; eauto].
Qed.
Lemma jacobian_written c : view (fst (get_jacobian s h)) c <> view h c -> writes (call_guards h s CGetJacobian) (IPrim c).
Proof.
  apply by_only. intros W H. apply jacobian_rows_only; intros; apply H, jacobian_writes; eauto.
Qed.
Lemma set_written v c : view (fst (set_data s v h)) c <> view h c -> writes (call_guards h s CSetData) (IPrim c).
Proof. apply by_only. intros W H. apply set_data_only; intros; apply H, set_writes; auto. Qed.
Lemma check_written eps k ce c : view (fst (check_gradients s eps k ce h)) c <> view h c ->
  writes (call_guards h s (CCheckGradients k (fun x => length (prim_data h x)))) (IPrim c).
Proof.
  apply by_only. intros W H. apply check_only; intros; apply H; simpl; unfold check_guards; apply writes_app_l, gradient_writes;
  [now left | right; eauto].
Qed.
Lemma solve_written pinv sol c : view (fst (solve pinv sol s h)) c <> view h c ->
  writes (calls_guards h s [CGetGradient; CGetJacobian; CSetData]) (IPrim c).
Proof.
  apply by_only. intros W H.
  assert (H1 : forall x, writes (gradient_guards h s) (IPrim x) -> W x).
  { intros x Hx. apply H. unfold calls_guards. cbn [flat_map call_guards]. now apply writes_app_l. }
  apply solve_pres; [apply only_pre | | |].
  - intros v. apply set_data_only. intros x Hx. apply H1, gradient_writes. now left.
  - apply gradient_only; intros; apply H1, gradient_writes; [now left | right; eauto].
  - apply jacobian_rows_only; intros; apply H1, gradient_writes; [now left | right; eauto].
Qed.
End W.
