(** * Cells no constraint depends on (proofs for C31) *)
From Coq Require Import List ZArith NArith Arith Bool Lia Sorted Reals Lra.
From Verif Require Import Arith Vec Prim Cons Sketch Solve Api Spec SolverSpec ArithR ExactSpec
  HeapLemmas SolveLemmas WfLemmas DataLemmas SpecLemmas ExactLemmas GradLemmas PureLemmas LossLemmas
  SearchLemmas StepLemmas RMat ExactRun.
Import ListNotations.

Lemma map_repeat {X Y} (f : X -> Y) x k : map f (repeat x k) = repeat (f x) k.
Proof. induction k; simpl; congruence. Qed.
Section G.
Context {F : Type} {A : Arith F}.
Definition tgt_cell (t : gtarget) : pcell := match t with GPoint l => PPoint l | GLine l => PLine l | GArc l => PArc l end.
Lemma padd_other l g (h : heap F) c : c <> PPoint l -> prim_grad (fst (Point2_add_to_gradient l g h)) c = prim_grad h c.
Proof.
  intros H. unfold Point2_add_to_gradient, mbind, massert. destruct (all_finite g); auto. cbn [mret fst]. now apply grad_setP_other.
Qed.
Lemma add_other t g (h : heap F) c : ~ In c (tgt_cell t :: prim_refs h (tgt_cell t)) ->
  prim_grad (fst (add_to_gradient t g h)) c = prim_grad h c.
Proof.
  intros H. destruct t as [l|l|l]; cbn [add_to_gradient tgt_cell prim_refs] in *.
  - apply padd_other. intros ->. apply H. now left.
  - unfold Line_add_to_gradient, mbind at 1, massert. destruct (all_finite g); auto. cbn [mret]. unfold mbind.
    pose proof (padd_other (l_start (getL h l)) (firstn 2 g) h c) as E1.
    destruct (Point2_add_to_gradient (l_start (getL h l)) (firstn 2 g) h) as [h1 [u|]].
    + rewrite padd_other; [apply E1|]; intros ->; apply H; simpl; auto.
    + apply E1; intros ->; apply H; simpl; auto.
  - unfold Arc_add_to_gradient, mbind at 1, massert. destruct (all_finite g); auto. cbn [mret]. unfold mbind.
    pose proof (padd_other (a_center (getA h l)) (firstn 2 g) h c) as E1.
    destruct (Point2_add_to_gradient (a_center (getA h l)) (firstn 2 g) h) as [h1 [u|]]; cbn [fst] in *.
    + rewrite grad_setA_other; [apply E1|]; intros ->; apply H; simpl; auto.
    + apply E1; intros ->; apply H; simpl; auto.
Qed.
Lemma rows_targets (h : heap F) c tr : In tr (grad_rows h c) -> In (tgt_cell (fst tr)) (con_refs c).
Proof.
  destruct c; cbn [grad_rows con_refs]; repeat (match goal with |- context [if ?b then _ else _] => destruct b end);
  cbn [In]; intros H; repeat (destruct H as [<-|H]; [simpl; auto|]); tauto.
Qed.
Lemma update_other (h : heap F) k c : ~ In c (deps h k) -> prim_grad (fst (update_gradient k h)) c = prim_grad h c.
Proof.
  intros H. unfold update_gradient.
  assert (G : forall rows h1, struct_eq h h1 -> (forall tr, In tr rows -> In (tgt_cell (fst tr)) (con_refs k)) ->
    prim_grad (fst (mfor rows (fun tr => add_to_gradient (fst tr) (snd tr)) h1)) c = prim_grad h1 c).
  { induction rows as [|tr rows IH]; intros h1 S Hr; [reflexivity|]. simpl. unfold mbind.
    assert (E := add_other (fst tr) (snd tr) h1 c). assert (S1 := add_sd (fst tr) (snd tr) h1).
    destruct (add_to_gradient (fst tr) (snd tr) h1) as [h2 [u|]]; cbn [fst] in *.
    - rewrite IH; [apply E | eapply struct_pre; [exact S | apply S1] | intros; apply Hr; now right].
      intros Hi. apply H. unfold deps. apply in_flat_map. exists (tgt_cell (fst tr)).
      split; [apply Hr; now left|]. rewrite <- (struct_refs _ _ _ S). exact Hi.
    - apply E. intros Hi. apply H. unfold deps. apply in_flat_map. exists (tgt_cell (fst tr)).
      split; [apply Hr; now left|]. rewrite <- (struct_refs _ _ _ S). exact Hi. }
  apply G; [apply struct_pre|]. intros tr. apply rows_targets.
Qed.
Lemma untouched_grad s (h h' : heap F) g c : valid h s -> In c (cells s) ->
  (forall k, In k (s_cons s) -> ~ In c (deps h (getK h k))) -> get_gradient s h = (h', Val g) ->
  chunk (cells s) g c = repeat f0 (dim c).
Proof.
  intros V Hc Hk. unfold get_gradient, mbind at 1.
  assert (Z : prim_grad (zero_all s h) c = repeat f0 (dim c)).
  { apply zero_list; auto. intros x Hx. apply (v_live _ _ V). now apply (valid_reg _ _ _ V). }
  assert (G : forall ks h1, sdeq h h1 -> incl ks (s_cons s) ->
    prim_grad (fst (mfor ks (fun k h => update_gradient (getK h k) h) h1)) c = prim_grad h1 c).
  { induction ks as [|k ks IH]; intros h1 S Hi; [reflexivity|]. simpl. unfold mbind.
    assert (E := update_other h1 (getK h1 k) c). assert (S1 := update_sd (getK h1 k) h1).
    assert (N : ~ In c (deps h1 (getK h1 k))).
    { rewrite (struct_getK _ _ _ (proj1 S)). unfold deps. rewrite (flat_map_ext _ (fun r => r :: prim_refs h r)).
      - apply Hk. apply Hi. now left.
      - intros r. now rewrite (struct_refs _ _ _ (proj1 S)). }
    destruct (update_gradient (getK h1 k) h1) as [h2 [u|]]; cbn [fst] in *; [|now apply E].
    rewrite IH; [now apply E | eapply sd_pre; eauto | intros x Hx; apply Hi; now right]. }
  specialize (G (s_cons s) (zero_all s h) (zero_all_sd s h) (incl_refl _)).
  destruct (mfor _ _ _) as [h1 [u|]]; [|discriminate]. cbn [fst] in G.
  unfold mbind, massert. destruct (forallb _ _); [|discriminate]. intros E. injection E as <- <-.
  unfold stored_gradient. rewrite chunk_flat; auto; [congruence|]. apply prim_grad_dim.
Qed.
End G.

Local Open Scope R_scope.
Section S.
Variables (s : sketch) (h0 : heap xR) (c : pcell).
Hypothesis V : valid h0 s.
Hypothesis CF : all_con_finite h0 s.
Hypothesis Hc : In c (cells s).
Hypothesis HK : forall k, In k (s_cons s) -> ~ In c (deps h0 (getK h0 k)).
Let cs := cells s.
Let n := get_n_dofs h0 s.

Definition rest (v : list R) : Prop := chunk cs v c = repeat 0 (dim c).
Definition at0 (v : list R) : Prop := length v = n /\ chunk cs (FinV v) c = prim_data h0 c.
Definition K (h : heap xR) : Prop := okh s h0 h /\ prim_data h c = prim_data h0 c.

Lemma K_sd h h' : sdeq h h' -> K h -> K h'.
Proof. intros S [H1 H2]. split; [now apply (ok_sd s h0 h)|]. rewrite <- H2. now apply (proj2 S). Qed.
Lemma K_data h : K h -> exists v, get_data h s = FinV v /\ at0 v.
Proof.
  intros [H1 H2]. exists (map vx (get_data h s)). rewrite <- (ok_data s h0 h H1). split; auto. split.
  - rewrite map_length, get_data_length. apply n_dofs_any.
  - rewrite <- (ok_data s h0 h H1). unfold get_data. rewrite chunk_flat; auto. apply prim_data_dim.
Qed.
Lemma K_set h v : K h -> at0 v -> exists h', set_data s (FinV v) h = (h', Val tt) /\ K h'.
Proof.
  intros [Ho _] [L E]. destruct (set_data_ok s (FinV v) h) as [h' Eh].
  { rewrite FinV_length, L. apply n_dofs_any. } { apply finite_FinV. }
  exists h'. split; auto. destruct (ok_set s h0 V _ _ _ (proj1 Ho) Eh) as [O2 D2]. split; auto.
  rewrite <- E, <- D2. unfold get_data. rewrite chunk_flat; auto. apply prim_data_dim.
Qed.
Lemma K_grad h h' g : K h -> get_gradient s h = (h', Val g) -> exists gr, g = FinV gr /\ length gr = n /\ rest gr.
Proof.
  intros [Ho _] E. destruct (ok_grad s h0 _ _ _ E) as (gr & -> & L). exists gr. split; auto. split; auto.
  assert (X : chunk cs (FinV gr) c = repeat f0 (dim c)).
  { eapply untouched_grad; [apply (ok_valid s h0 V h Ho) | exact Hc | | exact E].
    intros k Hk. destruct Ho as [[S _] _]. rewrite (struct_getK _ _ _ S). unfold deps.
    rewrite (flat_map_ext _ (fun r => r :: prim_refs h0 r)); [now apply HK|]. intros r. now rewrite (struct_refs _ _ _ S). }
  unfold FinV in X. rewrite chunk_map, f0_R in X. apply (f_equal (map vx)) in X. rewrite map_vx_Fin in X.
  unfold rest. rewrite X. rewrite map_repeat. reflexivity.
Qed.
Lemma map2_zeros_r (f : R -> R -> R) k : forall u, length u = k -> (forall x, f x 0 = x) -> map2 f u (repeat 0 k) = u.
Proof. induction k as [|k IH]; intros [|x u] L H; simpl in *; try discriminate; auto. rewrite H, IH; auto. Qed.
Lemma rest_neg v : rest v -> rest (negL v).
Proof. unfold rest, negL. intros H. rewrite chunk_map, H, map_repeat. f_equal. lra. Qed.
Lemma rest_scl a v : rest v -> rest (sclL a v).
Proof. unfold rest, sclL. intros H. rewrite chunk_map, H, map_repeat. f_equal. lra. Qed.
Lemma rest_sub u v : rest u -> rest v -> rest (subL u v).
Proof.
  unfold rest, subL. intros H1 H2. rewrite chunk_map2, H1, H2. apply map2_zeros_r; [apply repeat_length|]. intros; lra.
Qed.
Lemma at0_add u v : at0 u -> length v = n -> rest v -> at0 (addL u v).
Proof.
  intros [L E] Lv Hv. split; [lens|]. rewrite <- E. unfold FinV, addL. rewrite !chunk_map, chunk_map2. f_equal.
  rewrite Hv. apply map2_zeros_r; [|intros; lra]. apply chunk_length; auto. rewrite L. unfold n. apply n_dofs_dims.
Qed.
(** the rows of c in the inverse Hessian are those of the identity *)
Definition rowsI (m : list (list R)) : Prop := chunk cs m c = chunk cs (idL n) c.
Lemma rows_mul m v : rowsI m -> length v = n -> chunk cs (mulL m v) c = chunk cs v c.
Proof.
  intros H L. unfold mulL. rewrite chunk_map, H, <- (chunk_map (fun r => dotL r v)). fold (mulL (idL n) v). now rewrite id_mul.
Qed.
Lemma rows_ger a u w m : length w = n -> square n m -> rowsI m -> rest u -> rowsI (gerL a u w m).
Proof.
  intros Lw Sq H Hu. unfold rowsI, gerL. rewrite chunk_map2, Hu.
  assert (Lc : length (chunk cs m c) = dim c) by (apply chunk_length; auto; destruct Sq as [-> _]; apply n_dofs_dims).
  assert (Fr : List.Forall (fun r => length r = n) (chunk cs m c)).
  { rewrite H. apply List.Forall_forall. intros r Hr.
    assert (G : forall (cs' : list pcell) (v : list (list R)) x, In x (chunk cs' v c) -> In x v).
    { induction cs' as [|y cs' IH]; intros v x Hx; simpl in Hx; [destruct Hx|].
      destruct (pcell_eqb y c).
      - rewrite <- (firstn_skipn (dim y) v). apply in_or_app. now left.
      - apply IH in Hx. rewrite <- (firstn_skipn (dim y) v). apply in_or_app. now right. }
    apply G in Hr. destruct (id_square n) as [_ F]. rewrite List.Forall_forall in F. auto. }
  rewrite <- H. revert Lc Fr. generalize (dim c) (chunk cs m c). induction n0 as [|k IH]; intros [|r l] Lc Fr; simpl in *; try discriminate; auto.
  inversion Fr; subst. rewrite IH; auto. f_equal.
  assert (E : forall w r : list R, length w = length r -> map2 (fun wj hij => a * wj * 0 + hij) w r = r).
  { clear. induction w as [|x w IH]; intros [|z r] L; simpl in *; try discriminate; auto. rewrite IH by lia. f_equal. lra. }
  apply E. congruence.
Qed.
Lemma rows_upd m sv y cc : square n m -> rowsI m -> length sv = n -> length y = n -> rest sv -> rest y -> rowsI (updL m sv y cc).
Proof.
  intros Sq H Ls Ly Rs Ry. unfold updL.
  assert (Rh : rest (mulL m y)) by (unfold rest; rewrite rows_mul; auto).
  assert (Lh : length (mulL m y) = n) by (rewrite mulL_length; apply Sq).
  assert (S1 := ger_square n ((cc + dotL y (mulL m y)) / (cc * cc)) sv sv m Ls Ls Sq).
  assert (S2 := ger_square n (-1 / cc) (mulL m y) sv _ Lh Ls S1).
  apply rows_ger; auto. apply rows_ger; auto. apply rows_ger; auto.
Qed.

Lemma search_K x d loss m curv : at0 x -> length d = n -> rest d -> forall k a h, K h ->
  K (fst (ls_loop s (FinV x) (FinV d) loss m curv k (Fin a) h)) /\
  (forall al, snd (ls_loop s (FinV x) (FinV d) loss m curv k (Fin a) h) = Val (LOk al) -> exists r, al = Fin r).
Proof.
  intros Hx Ld Rd. induction k as [|k IH]; intros a h Hh; cbn [ls_loop]; [split; auto; discriminate|].
  unfold mbind at 1. unfold mbind at 2. rewrite vscale_R, vadd_R.
  destruct (K_set h (addL x (sclL a d)) Hh) as (h1 & E & K1).
  { apply at0_add; auto; [lens | now apply rest_scl]. }
  rewrite E. destruct (fle _ _).
  - unfold mbind. destruct (get_gradient s h1) as [h2 [g|]] eqn:Eg.
    + assert (K2 : K h2) by (eapply K_sd; [eapply gradient_sd; eauto | auto]).
      destruct (fge _ _); [split; auto; intros al Ea; injection Ea as <-; eauto|]. simpl. now apply IH.
    + assert (K2 : K h2) by (eapply K_sd; [eapply gradient_sd; eauto | auto]). split; auto. discriminate.
  - unfold fhalf. now apply IH.
Qed.
Lemma line_K d g h : length d = n -> rest d -> K h ->
  K (fst (line_search_wolfe s (FinV d) g h)) /\
  (forall al, snd (line_search_wolfe s (FinV d) g h) = Val (LOk al) -> exists r, al = Fin r).
Proof.
  intros Ld Rd Hh. unfold line_search_wolfe. destruct (fge _ _); [split; auto; discriminate|].
  destruct (K_data h Hh) as (x & -> & Hx). rewrite f1_R. now apply search_K.
Qed.
Lemma gd_K P : forall k it gr nm l h, K h -> length gr = n -> rest gr -> K (fst (gd_loop s P k it (FinV gr) nm l h)).
Proof.
  induction k as [|k IH]; intros it gr nm l h Hh Lg Rg; cbn [gd_loop]; auto.
  destruct (flt nm _); auto. destruct (flt l _); auto. unfold mbind at 1. rewrite vneg_R.
  assert (Ln : length (negL gr) = n) by lens.
  destruct (line_K (negL gr) (FinV gr) h Ln (rest_neg _ Rg) Hh) as [K1 Al].
  destruct (line_search_wolfe s (FinV (negL gr)) (FinV gr) h) as [h1 [[al|e]|]]; auto.
  cbn [fst snd] in *. destruct (Al al eq_refl) as [a ->]. destruct (K_data h Hh) as (x & -> & Hx).
  unfold mbind at 1. unfold f1. rewrite vaxpy_R.
  destruct (K_set h1 (addL x (sclL a (negL gr))) K1) as (h2 & E & K2).
  { apply at0_add; auto; [lens | now apply rest_scl, rest_neg]. }
  rewrite E. unfold mbind. destruct (get_gradient s h2) as [h3 [g'|]] eqn:Eg.
  - assert (K3 : K h3) by (eapply K_sd; [eapply gradient_sd; eauto | auto]).
    destruct (K_grad _ _ _ K2 Eg) as (gr' & -> & Lg' & Rg'). now apply IH.
  - eapply K_sd; [eapply gradient_sd; eauto | auto].
Qed.
Lemma gd_run_K P : K h0 -> K (fst (gd_run s P h0)).
Proof.
  intros H0. unfold gd_run, mbind. destruct (get_gradient s h0) as [h1 [g|]] eqn:Eg.
  - destruct (K_grad _ _ _ H0 Eg) as (gr & -> & Lg & Rg). apply gd_K; auto. eapply K_sd; [eapply gradient_sd; eauto | auto].
  - eapply K_sd; [eapply gradient_sd; eauto | auto].
Qed.
Lemma bfgs_K P : forall f it x m b h, K h -> at0 x -> square n m -> rowsI m -> K (fst (bfgs_loop s P f it (FinV x) (FinM m) b h)).
Proof.
  induction f as [|f IH]; intros it x m b h Hh Hx Sq Hm; cbn [bfgs_loop]; auto. destruct (negb _); auto. destruct (flt _ _); auto.
  unfold mbind at 1. destruct (get_gradient s h) as [h1 [g|]] eqn:Eg.
  2:{ eapply K_sd; [eapply gradient_sd; eauto | auto]. }
  assert (K1 : K h1) by (eapply K_sd; [eapply gradient_sd; eauto | auto]).
  destruct (K_grad _ _ _ Hh Eg) as (gr & -> & Lg & Rg). destruct (negb _); auto. destruct (flt _ _); auto.
  rewrite dir_R. destruct (negb _); auto. set (p := negL (mulL m gr)).
  assert (Lp : length p = n) by (unfold p; destruct Sq as [Lm _]; lens).
  assert (Rp : rest p) by (unfold p; apply rest_neg; unfold rest; rewrite rows_mul; auto).
  unfold mbind at 1. destruct (line_K p (FinV gr) h1 Lp Rp K1) as [K2 Al].
  destruct (line_search_wolfe s (FinV p) (FinV gr) h1) as [h2 [[al|[|]]|]]; auto; cbn [fst snd] in *.
  - destruct (Al al eq_refl) as [a ->]. rewrite vscale_R, vadd_R. unfold mbind at 1.
    assert (Ls : length (sclL a p) = n) by lens.
    assert (A' : at0 (addL x (sclL a p))) by (apply at0_add; auto; now apply rest_scl).
    destruct (K_set h2 _ K2 A') as (h3 & E & K3). rewrite E. unfold mbind.
    destruct (get_gradient s h3) as [h4 [g'|]] eqn:Eg'.
    2:{ eapply K_sd; [eapply gradient_sd; eauto | auto]. }
    assert (K4 : K h4) by (eapply K_sd; [eapply gradient_sd; eauto | auto]).
    destruct (K_grad _ _ _ K3 Eg') as (gr' & -> & Lg' & Rg'). rewrite vsub_R, sdoty_R, bfgs_update_R by apply sdoty_nonzero.
    assert (Ly : length (subL gr' gr) = n) by lens.
    apply IH; auto; [apply upd_square; auto|]. apply rows_upd; auto; [now apply rest_scl | now apply rest_sub].
  - destruct b; auto. rewrite FinV_length. destruct Hx as [Lx Ex]. rewrite Lx, mident_R. apply IH; auto; [now split | apply id_square | reflexivity].
Qed.
Lemma bfgs_run_K P : K h0 -> K (fst (bfgs_run s P h0)).
Proof.
  intros H0. unfold bfgs_run. destruct (K_data h0 H0) as (x & E & Hx). rewrite E, FinV_length. pose proof Hx as [Lx _].
  rewrite Lx, mident_R. apply bfgs_K; auto; [apply id_square | reflexivity].
Qed.
End S.
Lemma C31_lemma pinv sol (h : heap xR) s c : valid h s -> finite_data h s -> all_con_finite h s -> registered s c ->
  (forall k, In k (s_cons s) -> ~ In c (deps h (getK h k))) ->
  match sol with GradientBased _ | BFGS _ => True | _ => False end ->
  prim_data (fst (solve pinv sol s h)) c = prim_data h c.
Proof.
  intros V Fd CF Hc Hk Hs. apply (valid_reg _ _ _ V) in Hc.
  assert (H0 : K s h c h).
  { split; auto. split; [apply frame_refl|]. now apply (finite_iff _ _ (valid_keys _ _ V)). }
  destruct sol as [P|P| |]; try contradiction; simpl; unfold mbind.
  - pose proof (gd_run_K s h c V Hc Hk P H0) as [_ E]. destruct (gd_run s P h) as [h' [r|]]; exact E.
  - pose proof (bfgs_run_K s h c V Hc Hk P H0) as [_ E]. destruct (bfgs_run s P h) as [h' [r|]]; exact E.
Qed.
