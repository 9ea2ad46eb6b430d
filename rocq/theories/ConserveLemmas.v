(** * Linear functions of the data that no solver changes (proofs for C31 and C62) *)
From Coq Require Import List ZArith NArith Arith Bool Lia Sorted Reals Lra.
From Verif Require Import Arith Vec Prim Cons Sketch Solve Api Spec SolverSpec ArithR ExactSpec MotionSpec
  HeapLemmas SolveLemmas WfLemmas DataLemmas SpecLemmas ExactLemmas DerivLemmas GradLemmas PureLemmas LossLemmas
  SearchLemmas StepLemmas RMat NlsMat ExactRun RestLemmas.
Import ListNotations.
Local Open Scope R_scope.

Lemma not_panic_good (h : heap xR) s : valid h s -> all_con_finite h s ->
  snd (get_gradient s h) <> Panic \/ snd (get_jacobian s h) <> Panic -> good s h.
Proof.
  intros V Hf H. apply good_iff; auto. intros k Hk Z. destruct (C18_lemma h s V Hf) as [C1 C2].
  destruct H as [H|H]; apply H; [apply C1 | apply C2]; eauto.
Qed.
Lemma sum_zeros {T} (f : T -> R) l : (forall x, In x l -> f x = 0) -> sumR (map f l) = 0.
Proof.
  induction l as [|x l IH]; intros H; simpl; auto. fold (sumR (map f l)). rewrite IH by (intros; apply H; now right).
  rewrite (H x) by now left. ring.
Qed.

Section S.
Variables (s : sketch) (h0 : heap xR) (u : list R).
Hypothesis V : valid h0 s.
Hypothesis CF : all_con_finite h0 s.
Let cs := cells s.
Let n := get_n_dofs h0 s.
Hypothesis Lu : length u = n.
Hypothesis Hu : forall h k, okh s h0 h -> good s h -> In k (s_cons s) ->
  pairing h (D_of cs u) (fin_rows h (getK h k)) = 0.

Definition Rest (v : list R) : Prop := dotL v u = 0.
Definition At (v : list R) : Prop := length v = n /\ dotL v u = dotL (map vx (get_data h0 s)) u.
Definition KK (h : heap xR) : Prop := okh s h0 h /\ dotL (map vx (get_data h s)) u = dotL (map vx (get_data h0 s)) u.

Lemma KK_sd h h' : sdeq h h' -> KK h -> KK h'.
Proof. intros S [H1 H2]. split; [now apply (ok_sd s h0 h)|]. rewrite <- H2. now rewrite (sd_get_data _ _ s S). Qed.
Lemma KK_data h : KK h -> exists v, get_data h s = FinV v /\ At v.
Proof.
  intros [H1 H2]. exists (map vx (get_data h s)). rewrite <- (ok_data s h0 h H1). split; auto. split; auto.
  rewrite map_length, get_data_length. apply n_dofs_any.
Qed.
Lemma KK_set h v : KK h -> At v -> exists h', set_data s (FinV v) h = (h', Val tt) /\ KK h'.
Proof.
  intros [Ho _] [L E]. destruct (set_data_ok s (FinV v) h) as [h' Eh].
  { rewrite FinV_length, L. apply n_dofs_any. } { apply finite_FinV. }
  exists h'. split; auto. destruct (ok_set s h0 V _ _ _ (proj1 Ho) Eh) as [O2 D2]. split; auto.
  rewrite D2, <- E. f_equal. unfold FinV. apply map_vx_Fin.
Qed.
Lemma KK_grad h h' g : KK h -> get_gradient s h = (h', Val g) -> exists gr, g = FinV gr /\ length gr = n /\ Rest gr.
Proof.
  intros [Ho _] E. assert (Vh := ok_valid s h0 V h Ho).
  assert (G : good s h). { apply not_panic_good; auto; [now apply (ok_fin s h0 CF)|]. left. rewrite E. discriminate. }
  destruct (gradient_ok s h (valid_nd _ _ Vh) (valid_cells _ _ Vh) G) as (h2 & E2 & L & P). rewrite E in E2. injection E2 as -> ->.
  exists (gvec s h2). split; auto. split; [rewrite L; apply n_dofs_any|]. unfold Rest.
  rewrite P by (rewrite Lu; apply n_dofs_any). apply sum_zeros. intros k Hk. now apply Hu.
Qed.
Lemma KK_jac h h' J : KK h -> get_jacobian s h = (h', Val J) ->
  exists Jr, J = FinM Jr /\ rows n Jr /\ length Jr = length (s_cons s) /\ mulL Jr u = repeat 0 (length Jr).
Proof.
  intros [Ho _] E. assert (Vh := ok_valid s h0 V h Ho).
  assert (G : good s h). { apply not_panic_good; auto; [now apply (ok_fin s h0 CF)|]. right. rewrite E. discriminate. }
  destruct (jacobian_ok s h (valid_nd _ _ Vh) (valid_cells _ _ Vh) G (s_cons s) (incl_refl _) h) as (h2 & Jr & E2 & _ & FJ);
    [split; [apply struct_pre | intros ? ?; reflexivity]|].
  unfold get_jacobian in E. rewrite E in E2. injection E2 as -> ->. exists Jr. split; auto.
  assert (Dn : get_n_dofs h s = n) by apply n_dofs_any. rewrite Dn in FJ.
  assert (X : forall ks Jr, Forall2 (fun k row => length row = n /\ forall d, length d = n ->
       dotL row d = pairing h (D_of (cells s) d) (fin_rows h (getK h k))) ks Jr -> incl ks (s_cons s) ->
     rows n Jr /\ length Jr = length ks /\ mulL Jr u = repeat 0 (length Jr)).
  { clear E FJ. induction 1 as [|k row ks J' [Lr Pr] FJ IH]; intros Hi; [repeat split; constructor|].
    destruct IH as (I1 & I2 & I3); [intros x Hx; apply Hi; now right|].
    split; [constructor; auto|]. split; [simpl; congruence|]. simpl. rewrite I3. f_equal. rewrite Pr by auto.
    apply Hu; auto. apply Hi. now left. }
  apply X; auto. apply incl_refl.
Qed.
Lemma Rest_neg v : Rest v -> Rest (negL v).
Proof. unfold Rest. intros H. rewrite dot_neg_l, H. ring. Qed.
Lemma Rest_scl a v : Rest v -> Rest (sclL a v).
Proof. unfold Rest. intros H. rewrite dot_scl_l, H. ring. Qed.
Lemma Rest_sub v w : length v = length w -> Rest v -> Rest w -> Rest (subL v w).
Proof. unfold Rest. intros L H1 H2. rewrite dot_sub_l, H1, H2 by auto. ring. Qed.
Lemma At_add v w : At v -> length w = n -> Rest w -> At (addL v w).
Proof. intros [L E] Lw Hw. split; [lens|]. rewrite dot_add_l by congruence. rewrite Hw, E. ring. Qed.
Lemma At_sub v w : At v -> length w = n -> Rest w -> At (subL v w).
Proof. intros [L E] Lw Hw. split; [lens|]. rewrite dot_sub_l by congruence. rewrite Hw, E. ring. Qed.
(** the inverse Hessian acts as the identity against u *)
Definition Keeps (m : list (list R)) : Prop := forall v, length v = n -> dotL (mulL m v) u = dotL v u.
Lemma keeps_id : Keeps (idL n).
Proof. intros v L. now rewrite id_mul. Qed.
Lemma keeps_upd m sv y cc : square n m -> Keeps m -> length sv = n -> length y = n -> Rest sv -> Rest y -> Keeps (updL m sv y cc).
Proof.
  intros Sq H Ls Ly Rs Ry v Lv. rewrite (upd_mul n) by auto.
  assert (Lh : length (mulL m y) = n) by (rewrite mulL_length; apply Sq).
  assert (Lv' : length (mulL m v) = n) by (rewrite mulL_length; apply Sq). pose proof (proj1 Sq) as Lm.
  rewrite dot_add_l by lens.
  rewrite dot_add_l by lens.
  rewrite dot_add_l by lens.
  rewrite !dot_scl_l, !H by auto. unfold Rest in *. rewrite Rs, Ry. ring.
Qed.

Lemma search_KK x d loss m curv : At x -> length d = n -> Rest d -> forall k a h, KK h ->
  KK (fst (ls_loop s (FinV x) (FinV d) loss m curv k (Fin a) h)) /\
  (forall al, snd (ls_loop s (FinV x) (FinV d) loss m curv k (Fin a) h) = Val (LOk al) -> exists r, al = Fin r).
Proof.
  intros Hx Ld Rd. induction k as [|k IH]; intros a h Hh; cbn [ls_loop]; [split; auto; discriminate|].
  unfold mbind at 1. unfold mbind at 2. rewrite vscale_R, vadd_R.
  destruct (KK_set h (addL x (sclL a d)) Hh) as (h1 & E & K1).
  { apply At_add; auto; [lens | now apply Rest_scl]. }
  rewrite E. destruct (fle _ _).
  - unfold mbind. destruct (get_gradient s h1) as [h2 [g|]] eqn:Eg.
    + assert (K2 : KK h2) by (eapply KK_sd; [eapply gradient_sd; eauto | auto]).
      destruct (fge _ _); [split; auto; intros al Ea; injection Ea as <-; eauto|]. simpl. now apply IH.
    + assert (K2 : KK h2) by (eapply KK_sd; [eapply gradient_sd; eauto | auto]). split; auto. discriminate.
  - unfold fhalf. now apply IH.
Qed.
Lemma line_KK d g h : length d = n -> Rest d -> KK h ->
  KK (fst (line_search_wolfe s (FinV d) g h)) /\
  (forall al, snd (line_search_wolfe s (FinV d) g h) = Val (LOk al) -> exists r, al = Fin r).
Proof.
  intros Ld Rd Hh. unfold line_search_wolfe. destruct (fge _ _); [split; auto; discriminate|].
  destruct (KK_data h Hh) as (x & -> & Hx). rewrite f1_R. now apply search_KK.
Qed.
Lemma gd_KK P : forall k it gr nm l h, KK h -> length gr = n -> Rest gr -> KK (fst (gd_loop s P k it (FinV gr) nm l h)).
Proof.
  induction k as [|k IH]; intros it gr nm l h Hh Lg Rg; cbn [gd_loop]; auto.
  destruct (flt nm _); auto. destruct (flt l _); auto. unfold mbind at 1. rewrite vneg_R.
  assert (Ln : length (negL gr) = n) by lens.
  destruct (line_KK (negL gr) (FinV gr) h Ln (Rest_neg _ Rg) Hh) as [K1 Al].
  destruct (line_search_wolfe s (FinV (negL gr)) (FinV gr) h) as [h1 [[al|e]|]]; auto.
  cbn [fst snd] in *. destruct (Al al eq_refl) as [a ->]. destruct (KK_data h Hh) as (x & -> & Hx).
  unfold mbind at 1. unfold f1. rewrite vaxpy_R.
  destruct (KK_set h1 (addL x (sclL a (negL gr))) K1) as (h2 & E & K2).
  { apply At_add; auto; [lens | now apply Rest_scl, Rest_neg]. }
  rewrite E. unfold mbind. destruct (get_gradient s h2) as [h3 [g'|]] eqn:Eg.
  - assert (K3 : KK h3) by (eapply KK_sd; [eapply gradient_sd; eauto | auto]).
    destruct (KK_grad _ _ _ K2 Eg) as (gr' & -> & Lg' & Rg'). now apply IH.
  - eapply KK_sd; [eapply gradient_sd; eauto | auto].
Qed.
Lemma gd_run_KK P : KK h0 -> KK (fst (gd_run s P h0)).
Proof.
  intros H0. unfold gd_run, mbind. destruct (get_gradient s h0) as [h1 [g|]] eqn:Eg.
  - destruct (KK_grad _ _ _ H0 Eg) as (gr & -> & Lg & Rg). apply gd_KK; auto. eapply KK_sd; [eapply gradient_sd; eauto | auto].
  - eapply KK_sd; [eapply gradient_sd; eauto | auto].
Qed.
Lemma bfgs_KK P : forall f it x m b h, KK h -> At x -> square n m -> Keeps m -> KK (fst (bfgs_loop s P f it (FinV x) (FinM m) b h)).
Proof.
  induction f as [|f IH]; intros it x m b h Hh Hx Sq Hm; cbn [bfgs_loop]; auto. destruct (negb _); auto. destruct (flt _ _); auto.
  unfold mbind at 1. destruct (get_gradient s h) as [h1 [g|]] eqn:Eg.
  2:{ eapply KK_sd; [eapply gradient_sd; eauto | auto]. }
  assert (K1 : KK h1) by (eapply KK_sd; [eapply gradient_sd; eauto | auto]).
  destruct (KK_grad _ _ _ Hh Eg) as (gr & -> & Lg & Rg). destruct (negb _); auto. destruct (flt _ _); auto.
  rewrite dir_R. destruct (negb _); auto. set (p := negL (mulL m gr)).
  assert (Lp : length p = n) by (unfold p; destruct Sq as [Lm _]; lens).
  assert (Rp : Rest p) by (unfold p; apply Rest_neg; unfold Rest; rewrite Hm; auto).
  unfold mbind at 1. destruct (line_KK p (FinV gr) h1 Lp Rp K1) as [K2 Al].
  destruct (line_search_wolfe s (FinV p) (FinV gr) h1) as [h2 [[al|[|]]|]]; auto; cbn [fst snd] in *.
  - destruct (Al al eq_refl) as [a ->]. rewrite vscale_R, vadd_R. unfold mbind at 1.
    assert (Ls : length (sclL a p) = n) by lens.
    assert (A' : At (addL x (sclL a p))) by (apply At_add; auto; now apply Rest_scl).
    destruct (KK_set h2 _ K2 A') as (h3 & E & K3). rewrite E. unfold mbind.
    destruct (get_gradient s h3) as [h4 [g'|]] eqn:Eg'.
    2:{ eapply KK_sd; [eapply gradient_sd; eauto | auto]. }
    assert (K4 : KK h4) by (eapply KK_sd; [eapply gradient_sd; eauto | auto]).
    destruct (KK_grad _ _ _ K3 Eg') as (gr' & -> & Lg' & Rg'). rewrite vsub_R, sdoty_R, bfgs_update_R by apply sdoty_nonzero.
    assert (Ly : length (subL gr' gr) = n) by lens.
    apply IH; auto; [apply upd_square; auto|]. apply keeps_upd; auto; [now apply Rest_scl | apply Rest_sub; auto; congruence].
  - destruct b; auto. rewrite FinV_length. pose proof Hx as [Lx _]. rewrite Lx, mident_R. apply IH; auto; [apply id_square | apply keeps_id].
Qed.
Lemma bfgs_run_KK P : KK h0 -> KK (fst (bfgs_run s P h0)).
Proof.
  intros H0. unfold bfgs_run. destruct (KK_data h0 H0) as (x & E & Hx). rewrite E, FinV_length. pose proof Hx as [Lx _].
  rewrite Lx, mident_R. apply bfgs_KK; auto; [apply id_square | apply keeps_id].
Qed.

(** ** Gauss-Newton and Levenberg-Marquardt *)
Variable pinv : mat xR -> xR -> pinv_res (mat xR).
Hypothesis PI : exact_pinv pinv.
Lemma losses_R h : okh s h0 h -> get_loss_per_constraint h s = FinV (map vx (get_loss_per_constraint h s)).
Proof.
  intros Ho. apply all_finite_inv. unfold all_finite. apply forallb_forall. intros x Hx.
  unfold get_loss_per_constraint in Hx. apply in_map_iff in Hx as (k & <- & Hk).
  rewrite loss_R by (now apply (ok_fin s h0 CF)). reflexivity.
Qed.
Lemma losses_length (h : heap xR) : length (get_loss_per_constraint h s) = length (s_cons s).
Proof. unfold get_loss_per_constraint. apply map_length. Qed.
(** one step: data - step q J^T losses with q a truncated inverse of the normal matrix *)
Lemma step_R x w Jr normal N eps st y : normal (length x) (FinM Jr) = FinM N -> symmetric (length x) N ->
  length w = length Jr -> rows (length x) Jr ->
  nls_step pinv (FinV x) (FinV w) (FinM Jr) (normal (length (FinV x)) (FinM Jr)) eps (Fin st) = PInv y ->
  exists q, truncated_inverse (length x) N q /\ y = FinV (subL x (sclL st (mulL q (mulL (trL (length x) Jr) w)))).
Proof.
  intros En Sy Lw RJ. unfold nls_step. rewrite !FinV_length, En. destruct (pinv (FinM N) eps) as [Q| |] eqn:E; try discriminate.
  destruct (PI _ _ _ _ Sy E) as (q & -> & T). intros X. injection X as <-. exists q. split; auto.
  change (map (map Fin) q) with (FinM q). rewrite mtrans_R, mmul_R, mvec_R, vmuls_R, vsub_R. do 3 f_equal.
  apply mm_mul; auto.
  - rewrite Lw. apply trL_rows.
  - destruct T as ((Lq & Rq & _) & _). rewrite trL_length. exact Rq.
Qed.
Lemma nls_KK normal b ml eps st : (forall Jr, rows n Jr -> exists N, normal n (FinM Jr) = FinM N /\ symmetric n N /\
     forall q, truncated_inverse n N q -> truncated_inverse n (normL b n Jr) q) ->
  forall k it l h, KK h -> KK (fst (nls_loop pinv s normal ml eps (Fin st) k it l h)).
Proof.
  intros Hn. induction k as [|k IH]; intros it l h Hh; cbn [nls_loop]; auto. destruct (negb _); auto.
  unfold mbind at 1. destruct (get_jacobian s h) as [h1 [J|]] eqn:EJ.
  2:{ eapply KK_sd; [eapply jacobian_sd; eauto | auto]. }
  assert (K1 : KK h1) by (eapply KK_sd; [eapply jacobian_sd; eauto | auto]).
  destruct (KK_jac _ _ _ Hh EJ) as (Jr & -> & RJ & LJ & Z). destruct (KK_data h Hh) as (x & -> & Hx).
  rewrite (losses_R h (proj1 Hh)). set (w := map vx (get_loss_per_constraint h s)).
  assert (Lw : length w = length Jr) by (unfold w; rewrite map_length, losses_length; auto).
  pose proof Hx as [Lx _].
  destruct (Hn Jr RJ) as (N & EN & SN & TN).
  destruct (nls_step pinv (FinV x) (FinV w) (FinM Jr) (normal (length (FinV x)) (FinM Jr)) eps (Fin st)) as [y| |] eqn:Es; auto.
  destruct (step_R x w Jr normal N eps st y) as (q & T & ->); try rewrite Lx; auto.
  rewrite Lx in *. apply TN in T.
  destruct (KK_set h1 (subL x (sclL st (mulL q (mulL (trL n Jr) w)))) K1) as (h2 & E2 & K2).
  { assert (Lq : length (mulL q (mulL (trL n Jr) w)) = n) by (rewrite mulL_length; apply T).
    apply At_sub; auto; [rewrite sclL_length; exact Lq|]. apply Rest_scl. unfold Rest. rewrite dot_comm. apply (q_kernel n Jr RJ b q T); auto. }
  unfold mbind. rewrite E2. now apply IH.
Qed.
Lemma jtj_norm0 Jr q : rows n Jr -> truncated_inverse n (mmL n (trL n Jr) Jr) q -> truncated_inverse n (normL 0 n Jr) q.
Proof.
  intros RJ ((Lq & Rq & Sy) & Q1 & Q2).
  assert (E : forall v, length v = n -> mulR (normL 0 n Jr) v = mulR (mmL n (trL n Jr) Jr) v).
  { intros v L. change mulR with mulL. rewrite norm_mul, jtj_mul by auto.
    rewrite scl_zeros by now left. rewrite L. set (w := mulL _ _). assert (Lw : length w = n) by (unfold w; rewrite mulL_length; apply trL_length).
    unfold addL. now apply map2_zeros_r; [|intros; ring]. }
  split; [now repeat split|]. split.
  - intros v L. rewrite E by (change mulR with mulL; rewrite mulL_length; auto). auto.
  - intros v L. rewrite !E by (auto; change mulR with mulL; rewrite mulL_length; auto). auto.
Qed.
Lemma gn_normal_R Jr : gn_normal n (FinM Jr) = FinM (mmL n (trL n Jr) Jr).
Proof. unfold gn_normal. now rewrite mtrans_R, mmul_R. Qed.
Lemma lm_normal_R b Jr : lm_normal (Fin b) n (FinM Jr) = FinM (normL b n Jr).
Proof. unfold lm_normal, normL. now rewrite mtrans_R, mmul_R, mident_R, mscale_R, madd_R. Qed.
Lemma solve_KK sol : finite_steps sol -> KK h0 -> KK (fst (solve pinv sol s h0)).
Proof.
  intros Fs H0. destruct sol as [P|P|P|P]; cbn [solve finite_steps] in *; unfold mbind.
  - pose proof (gd_run_KK P H0) as K. destruct (gd_run s P h0) as [h' [r|]]; exact K.
  - pose proof (bfgs_run_KK P H0) as K. destruct (bfgs_run s P h0) as [h' [r|]]; exact K.
  - assert (K : KK (fst (gn_run pinv s P h0))).
    { unfold gn_run. rewrite (ffin_inv _ Fs). apply (nls_KK _ 0); auto. intros Jr RJ. exists (mmL n (trL n Jr) Jr).
      split; [apply gn_normal_R|]. split; [now apply jtj_sym|]. intros q. now apply jtj_norm0. }
    destruct (gn_run pinv s P h0) as [h' [r|]]; exact K.
  - assert (K : KK (fst (lm_run pinv s P h0))).
    { destruct Fs as [F1 F2]. unfold lm_run. rewrite (ffin_inv _ F1), (ffin_inv _ F2). apply (nls_KK _ (vx (lm_beta P))); auto.
      intros Jr RJ. exists (normL (vx (lm_beta P)) n Jr). split; [apply lm_normal_R|]. split; [now apply norm_sym | auto]. }
    destruct (lm_run pinv s P h0) as [h' [r|]]; exact K.
Qed.
End S.
