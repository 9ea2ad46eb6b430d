(** * When solvers panic, in exact arithmetic (proofs for C81) *)
From Coq Require Import List ZArith NArith Arith Bool Lia Sorted Reals Lra.
From Verif Require Import Arith Vec Prim Cons Sketch Solve Api Spec SerdeSpec NumSpec FiniteSpec SolverSpec ArithR ExactSpec MotionSpec PanicSpec
  HeapLemmas SolveLemmas WfLemmas DataLemmas SpecLemmas ExactLemmas DerivLemmas GradLemmas PureLemmas LossLemmas
  SearchLemmas StepLemmas RMat NlsMat ExactRun RestLemmas ConserveLemmas SolverForms FiniteForms PanicLemmas.
Import ListNotations.
Local Open Scope R_scope.

Lemma collapsed_sd (h h' : heap xR) s : valid h s -> all_con_finite h s -> all_con_finite h' s -> sdeq h h' -> collapsed h s -> collapsed h' s.
Proof.
  intros V C1 C2 S H. assert (V' : valid h' s) by (eapply valid_struct; [exact V | apply S]).
  apply (proj1 (C18_lemma h' s V' C2)). destruct (C17_gradient_lemma h h' s V) as [E _]; [apply (proj1 (sdeq_iff h h')); auto | apply (proj1 (sdeq_iff h h')); auto|]. rewrite <- E.
  now apply (proj1 (C18_lemma h s V C1)).
Qed.

Section S.
Variables (s : sketch) (h0 : heap xR).
Hypothesis V : valid h0 s.
Hypothesis CF : all_con_finite h0 s.
Let n := get_n_dofs h0 s.
Let ok := okh s h0.

Lemma oks_set h v : ok h -> length v = n -> exists h', set_data s (FinV v) h = (h', Val tt) /\ ok h'.
Proof.
  intros Ho L. destruct (set_data_ok s (FinV v) h) as [h' Eh].
  { rewrite FinV_length, L. apply n_dofs_any. } { apply finite_FinV. }
  exists h'. split; auto. exact (proj1 (ok_set s h0 V _ _ _ (proj1 Ho) Eh)).
Qed.
Lemma oks_data h : ok h -> exists v, get_data h s = FinV v /\ length v = n.
Proof.
  intros H. exists (map vx (get_data h s)). rewrite <- (ok_data s h0 h H). split; auto.
  rewrite map_length, get_data_length. apply n_dofs_any.
Qed.
Lemma oks_grad h h' g : ok h -> get_gradient s h = (h', Val g) -> (exists gr, g = FinV gr /\ length gr = n) /\ ok h'.
Proof.
  intros Ho E. split; [|eapply ok_sd; [eapply gradient_sd; eauto | auto]]. assert (Vh := ok_valid s h0 V h Ho).
  assert (G : good s h). { apply not_panic_good; auto; [now apply (ok_fin s h0 CF)|]. left. rewrite E. discriminate. }
  destruct (gradient_ok s h (valid_nd _ _ Vh) (valid_cells _ _ Vh) G) as (h2 & E2 & L & P). rewrite E in E2. injection E2 as -> ->.
  exists (gvec s h2). split; auto. rewrite L; apply n_dofs_any.
Qed.
Lemma oks_grad_panic h h' : ok h -> get_gradient s h = (h', Panic) -> collapsed h' s.
Proof.
  intros Ho E. pose proof (gradient_sd _ _ _ _ E) as S. assert (Vh := ok_valid s h0 V h Ho).
  eapply collapsed_sd; [exact Vh | now apply (ok_fin s h0 CF) | apply (ok_fin s h0 CF); eapply ok_sd; eauto | exact S |].
  apply (proj1 (C18_lemma h s Vh (ok_fin s h0 CF _ Ho))). now rewrite E.
Qed.
Lemma oks_jac_panic h h' : ok h -> get_jacobian s h = (h', Panic) -> collapsed h' s.
Proof.
  intros Ho E. pose proof (jacobian_sd _ _ _ _ E) as S. assert (Vh := ok_valid s h0 V h Ho).
  eapply collapsed_sd; [exact Vh | now apply (ok_fin s h0 CF) | apply (ok_fin s h0 CF); eapply ok_sd; eauto | exact S |].
  apply (proj2 (C18_lemma h s Vh (ok_fin s h0 CF _ Ho))). now rewrite E.
Qed.
Lemma oks_jac h h' J : ok h -> get_jacobian s h = (h', Val J) ->
  (exists Jr, J = FinM Jr /\ rows n Jr /\ length Jr = length (s_cons s)) /\ ok h'.
Proof.
  intros Ho E. split; [|eapply ok_sd; [eapply jacobian_sd; eauto | auto]]. assert (Vh := ok_valid s h0 V h Ho).
  assert (G : good s h). { apply not_panic_good; auto; [now apply (ok_fin s h0 CF)|]. right. rewrite E. discriminate. }
  destruct (jacobian_ok s h (valid_nd _ _ Vh) (valid_cells _ _ Vh) G (s_cons s) (incl_refl _) h) as (h2 & Jr & E2 & _ & FJ);
    [split; [apply struct_pre | intros ? ?; reflexivity]|].
  unfold get_jacobian in E. rewrite E in E2. injection E2 as -> ->. exists Jr. split; auto.
  assert (Dn : get_n_dofs h s = n) by apply n_dofs_any. rewrite Dn in FJ. clear - FJ.
  induction FJ as [|k row ks J' [Lr Pr] FJ IH]; [split; [constructor | auto]|]. destruct IH. split; [constructor; auto | simpl; congruence].
Qed.

(** a computation that leaves finite data and a result in Q, or panics in a collapsed sketch (or because of B) *)
Definition fine (B : Prop) {T} (Q : T -> Prop) (r : heap xR * out T) : Prop :=
  match snd r with Panic => collapsed (fst r) s \/ B | Val x => ok (fst r) /\ Q x end.
Lemma fine_bind B {T U} (m : M xR T) (f : T -> M xR U) Q Q' h : fine B Q (m h) -> (forall x h1, ok h1 -> Q x -> fine B Q' (f x h1)) ->
  fine B Q' (mbind m f h).
Proof. intros H1 H2. unfold mbind. unfold fine in H1. destruct (m h) as [h1 [x|]]; simpl in *; [now apply H2 | exact H1]. Qed.
Lemma fine_ret B {T} (Q : T -> Prop) x h : ok h -> Q x -> fine B Q (mret x h).
Proof. now split. Qed.
Lemma fine_set B h v : ok h -> length v = n -> fine B (fun _ => True) (set_data s (FinV v) h).
Proof. intros H L. destruct (oks_set h v H L) as (h1 & -> & K). now split. Qed.
Definition vecn (g : vec xR) := exists gr, g = FinV gr /\ length gr = n.
Lemma fine_grad B h : ok h -> fine B vecn (get_gradient s h).
Proof.
  intros H. destruct (get_gradient s h) as [h1 [g|]] eqn:E.
  - destruct (oks_grad _ _ _ H E). now split.
  - left. eapply oks_grad_panic; eauto.
Qed.
Lemma fine_jac B h : ok h -> fine B (fun J => exists Jr, J = FinM Jr /\ rows n Jr /\ length Jr = length (s_cons s)) (get_jacobian s h).
Proof.
  intros H. destruct (get_jacobian s h) as [h1 [g|]] eqn:E.
  - destruct (oks_jac _ _ _ H E). now split.
  - left. eapply oks_jac_panic; eauto.
Qed.
Definition lsfin (r : ls_res xR) := match r with LOk al => exists a, al = Fin a | LErr _ => True end.
Lemma search_fine B x d loss m curv : length x = n -> length d = n -> forall k a h, ok h ->
  fine B lsfin (ls_loop s (FinV x) (FinV d) loss m curv k (Fin a) h).
Proof.
  intros Lx Ld. induction k as [|k IH]; intros a h Hh; cbn [ls_loop]; [now apply fine_ret|].
  rewrite vscale_R, vadd_R. apply (fine_bind B _ _ (fun _ => True)); [apply fine_set; auto; lens|].
  intros _ h1 K1 _. cbv zeta. destruct (fle _ _).
  - apply (fine_bind B _ _ vecn); [now apply fine_grad|]. intros g h2 K2 _.
    destruct (fge _ _); [apply fine_ret; simpl; eauto|]. now apply IH.
  - now apply IH.
Qed.
Lemma line_fine B d g h : length d = n -> ok h -> fine B lsfin (line_search_wolfe s (FinV d) g h).
Proof.
  intros Ld Hh. unfold line_search_wolfe. destruct (fge _ _); [now split|].
  destruct (oks_data h Hh) as (x & -> & Lx). rewrite f1_R. now apply search_fine.
Qed.
Definition any {T} (x : T) := True.
Lemma gd_fine B P : forall k it gr nm l h, ok h -> length gr = n -> fine B any (gd_loop s P k it (FinV gr) nm l h).
Proof.
  induction k as [|k IH]; intros it gr nm l h Hh Lg; cbn [gd_loop]; [now apply fine_ret|].
  destruct (flt nm _); [now apply fine_ret|]. destruct (flt l _); [now apply fine_ret|]. cbv zeta. rewrite vneg_R.
  apply (fine_bind B _ _ lsfin); [apply line_fine; auto; lens|]. intros [al|e] h1 K1 Al; [|now apply fine_ret].
  destruct Al as [a ->]. destruct (oks_data h Hh) as (x & -> & Lx). unfold f1. rewrite vaxpy_R.
  apply (fine_bind B _ _ (fun _ => True)); [apply fine_set; auto; lens|]. intros _ h2 K2 _.
  apply (fine_bind B _ _ vecn); [now apply fine_grad|]. intros g h3 K3 (gr' & -> & Lg'). now apply IH.
Qed.
Lemma bfgs_fine B P : forall f it x m b h, ok h -> length x = n -> square n m -> fine B any (bfgs_loop s P f it (FinV x) (FinM m) b h).
Proof.
  induction f as [|f IH]; intros it x m b h Hh Lx Sq; cbn [bfgs_loop]; [now apply fine_ret|].
  destruct (negb _); [now apply fine_ret|]. destruct (flt _ _); [now split|].
  apply (fine_bind B _ _ vecn); [now apply fine_grad|]. intros g h1 K1 (gr & -> & Lg).
  destruct (negb _); [now apply fine_ret|]. destruct (flt _ _); [now apply fine_ret|]. cbv zeta.
  rewrite dir_R. destruct (negb _); [now apply fine_ret|]. set (p := negL (mulL m gr)).
  assert (Lp : length p = n) by (unfold p; destruct Sq as [Lm _]; lens).
  apply (fine_bind B _ _ lsfin); [apply line_fine; auto|]. intros [al|[|]] h2 K2 Al; [|now apply fine_ret|].
  - destruct Al as [a ->]. rewrite vscale_R, vadd_R. assert (Ls : length (sclL a p) = n) by lens.
    assert (A' : length (addL x (sclL a p)) = n) by lens.
    apply (fine_bind B _ _ (fun _ => True)); [now apply fine_set|]. intros _ h3 K3 _.
    apply (fine_bind B _ _ vecn); [now apply fine_grad|]. intros g h4 K4 (gr' & -> & Lg').
    rewrite vsub_R, sdoty_R, bfgs_update_R by apply sdoty_nonzero.
    assert (Ly : length (subL gr' gr) = n) by lens. apply IH; auto. apply upd_square; auto.
  - destruct b; [now apply fine_ret|]. rewrite FinV_length, Lx, mident_R. apply IH; auto. apply id_square.
Qed.
Variable pinv : mat xR -> xR -> pinv_res (mat xR).
Hypothesis PI : exact_pinv pinv.
Hypothesis PE : panics_only_on_empty pinv.
Lemma nls_fine normal ml eps st : (forall Jr, rows n Jr -> exists N, normal n (FinM Jr) = FinM N /\ symmetric n N) ->
  forall k it l h, ok h -> fine (n = 0%nat) any (nls_loop pinv s normal ml eps (Fin st) k it l h).
Proof.
  intros Hn. induction k as [|k IH]; intros it l h Hh; cbn [nls_loop]; [now apply fine_ret|].
  destruct (negb _); [now apply fine_ret|]. cbv zeta.
  eapply fine_bind; [apply fine_jac; auto|]. intros J h1 K1 (Jr & -> & RJ & LJ).
  destruct (oks_data h Hh) as (x & -> & Lx).
  rewrite (losses_R s h0 CF h Hh). set (w := map vx (get_loss_per_constraint h s)).
  assert (Lw : length w = length Jr) by (unfold w; rewrite map_length; unfold get_loss_per_constraint; rewrite map_length; auto).
  destruct (Hn Jr RJ) as (N & EN & SN).
  destruct (nls_step pinv (FinV x) (FinV w) (FinM Jr) (normal (length (FinV x)) (FinM Jr)) eps (Fin st)) as [y| |] eqn:Es.
  - destruct (step_R pinv PI x w Jr normal N eps st y) as (q & T & ->); try rewrite Lx; auto.
    eapply fine_bind; [apply fine_set; auto | intros _ h2 K2 _; now apply IH].
    assert (Lq : length (mulL q (mulL (trL (length x) Jr) w)) = n) by (rewrite mulL_length, <- Lx; apply T). rewrite subL_length; auto. rewrite sclL_length. congruence.
  - now apply fine_ret.
  - right. unfold nls_step in Es. rewrite FinV_length, Lx, EN in Es. destruct (pinv (FinM N) eps) eqn:Ep; try discriminate.
    apply PE in Ep. destruct SN as [L _]. destruct N; [exact (eq_sym L) | discriminate].
Qed.
Lemma solve_fine sol : finite_steps sol -> ok h0 ->
  fine (match sol with GaussNewton _ | LevenbergMarquardt _ => n = 0%nat | _ => False end) any (solve pinv sol s h0).
Proof.
  intros Fs H0. destruct sol as [P|P|P|P]; cbn [solve finite_steps] in *; (eapply fine_bind; [|intros x h1 K1 _; now apply fine_ret]).
  - unfold gd_run. eapply fine_bind; [apply fine_grad; auto|]. intros g h1 K1 (gr & -> & Lg). now apply gd_fine.
  - unfold bfgs_run. destruct (oks_data h0 H0) as (x & E & Lx). rewrite E, FinV_length. cbv zeta. rewrite Lx, mident_R. apply bfgs_fine; auto. apply id_square.
  - unfold gn_run. rewrite (ffin_inv _ Fs). apply nls_fine; auto. intros Jr RJ. exists (mmL n (trL n Jr) Jr).
    split; [apply gn_normal_R | now apply jtj_sym].
  - destruct Fs as [F1 F2]. unfold lm_run. rewrite (ffin_inv _ F1), (ffin_inv _ F2). apply nls_fine; auto.
    intros Jr RJ. exists (normL (vx (lm_beta P)) n Jr). split; [apply lm_normal_R | now apply norm_sym].
Qed.
End S.

Lemma data_con_finite (h : heap xR) c : heap_ok h -> all_data_finite h -> con_ok h c -> Forall fin (con_params c) -> con_finite h c.
Proof.
  intros HO [HD HC] Hk Hp. split.
  - destruct (con_new_ok c) eqn:E; auto. apply con_new_bad in E as (x & Hx & B). rewrite Forall_forall in Hp. unfold fin in Hp. now rewrite Hp in B.
  - intros d Hd. unfold deps in Hd. apply in_flat_map in Hd as (r & Hr & Hd).
    assert (Hc : cell_ok h r) by (red in Hk; rewrite Forall_forall in Hk; auto).
    unfold all_finite. apply forallb_forall. apply Forall_forall. apply HD. destruct Hd as [<-|Hd]; auto.
    pose proof (heap_ok_cell _ _ HO Hc) as X. rewrite Forall_forall in X. auto.
Qed.
Lemma fin_all_con (h : heap xR) s : valid h s -> all_data_finite h -> all_con_finite h s.
Proof.
  intros V HD k Hk. pose proof (v_live_cons _ _ V _ Hk) as L. apply data_con_finite; auto; [apply (v_heap _ _ V) | | now apply HD].
  pose proof (v_heap _ _ V) as HO. apply HO. exact L.
Qed.
Lemma one_con (h : heap xR) s k : valid h s -> all_data_finite h -> (k < length (h_cons h))%nat ->
  bad_rows h (getK h k) <-> zero_length (cfg_of h) h (getK h k).
Proof.
  intros V HD L. set (s1 := mkSketch [] 0%N [k]).
  assert (V1 : valid h s1). { split; simpl; [constructor | constructor | repeat constructor; intros [] | apply (v_heap _ _ V) | intros c (id & X); discriminate X | intros k' [<-|[]]; auto]. }
  pose proof (proj2 (C18_lemma h s1 V1 (fin_all_con h s1 V1 HD))) as C. unfold get_jacobian in C.
  rewrite (jac_panic h s1 (s_cons s1) h (pre_refl _ sd_pre h)) in C. simpl in C.
  split; intros H; [destruct (proj1 C) as (k' & [<-|[]] & X) | destruct (proj2 C) as (k' & [<-|[]] & X)]; eauto.
Qed.
Lemma bad_fin (v : vec xR) : Forall fin v -> ~ some_bad v.
Proof. intros H (x & Hx & B). rewrite Forall_forall in H. unfold fin in H. specialize (H x Hx). congruence. Qed.
Lemma finite_steps_nums sol : Forall fin (solver_nums sol) -> finite_steps sol.
Proof.
  destruct sol; simpl; auto; rewrite !Forall_cons_iff; unfold fin; tauto.
Qed.
Lemma solve_panic_exact pinv sol (h h' : heap xR) s : valid h s -> finite_data h s -> all_con_finite h s ->
  exact_pinv pinv -> panics_only_on_empty pinv -> finite_steps sol -> solve pinv sol s h = (h', Panic) -> why_panic_exact (Api.Solve sol) h' s.
Proof.
  intros V FD CF PI PE Fs E. pose proof (solve_fine s h V CF pinv PI PE sol Fs (okh_init _ _ V FD)) as X. unfold fine in X. rewrite E in X.
  cbn [fst snd] in X. rewrite (n_dofs_any h h') in X. destruct sol; simpl; tauto.
Qed.
Lemma C81_exact_lemma pinv (h h' : heap xR) s s' o : valid h s -> all_data_finite h -> op_ok h o -> Forall fin (op_nums o) ->
  exact_pinv pinv -> panics_only_on_empty pinv -> step pinv (h, s) o = ((h', s'), RetPanic) -> s' = s /\ why_panic_exact o h' s'.
Proof.
  intros V HD OK HF PI PE E. pose proof (fin_all_con h s V HD) as CF.
  assert (FD : finite_data h s) by (intros c Hc; apply HD, (v_live _ _ V), Hc).
  assert (S' : s' = s).
  { destruct o; cbn [step] in E; unfold on_heap in E; cbn [fst snd] in E;
    repeat match type of E with
    | match ?t with _ => _ end = _ => destruct t eqn:?
    end; try congruence;
    try match type of E with context [of_res _ ?x] => destruct x; discriminate E end.
    - unfold constrain in *. destruct (con_new_ok c); cbn [negb] in *; [|congruence]. destruct (allocK h c). destruct (add_constraint _ _ _) as [? [?|?]]; discriminate. }
  subst s'. split; auto.
  destruct (match o with Api.Solve _ | CheckGradients _ _ _ => true | _ => false end) eqn:Eo.
  - destruct o; try discriminate; [|exact I]. cbn [step] in E. unfold on_heap in E. cbn [fst snd] in E.
    destruct (solve pinv sol s h) as [h1 [x|]] eqn:Es; [discriminate|]. injection E as <-.
    apply (solve_panic_exact pinv sol h); auto. now apply finite_steps_nums.
  - assert (W : why_panic o h h' s) by (apply (C81_lemma pinv h s o h' s RetPanic V E); [destruct o; auto; discriminate | reflexivity]).
    destruct o; try discriminate; cbn [why_panic why_panic_exact op_nums op_ok step] in *; auto; try (now apply bad_fin in W).
    + destruct W as [W|W]; [|now apply bad_fin in W]. now rewrite (n_dofs_any h' h).
    + unfold on_heap in E. cbn [fst snd] in E. destruct (get_gradient s h) as [h1 [x|]] eqn:G; [discriminate|]. injection E as <-.
      eapply oks_grad_panic; eauto. now apply okh_init.
    + unfold on_heap in E. cbn [fst snd] in E. destruct (get_jacobian s h) as [h1 [x|]] eqn:G; [discriminate|]. injection E as <-.
      eapply oks_jac_panic; eauto. now apply okh_init.
    + inversion HF. unfold fin in *. congruence.
    + inversion HF. unfold fin in *. congruence.
    + destruct (same_kind _ _) eqn:Ek; [discriminate|]. injection E as <-. exact Ek.
    + destruct c; try tauto; (destruct W as [W|W]; [exact W | now apply bad_fin in W]).
    + unfold on_heap in E. cbn [fst snd] in E. pose proof (update_sd (getK h k) h) as SD.
      destruct (update_gradient _ h) as [h1 [x|]] eqn:G; [discriminate|]. injection E as <-. cbn [fst] in SD.
      apply (one_con h s k V HD OK) in W. unfold zero_length in *. rewrite (struct_getK _ _ _ (proj1 SD)), (sd_cfg _ _ SD).
      destruct W as (l1 & l2 & W1 & W2). exists l1, l2. split; auto. unfold dirR in *. now rewrite !(struct_getL _ _ _ (proj1 SD)).
Qed.
Lemma C81_converse_lemma pinv (h h' : heap xR) s s' o r : valid h s -> all_data_finite h -> op_ok h o ->
  step pinv (h, s) o = ((h', s'), r) -> match o with Api.Solve (GradientBased _) => True | Api.Solve _ | CheckGradients _ _ _ => False | _ => True end ->
  why_panic_exact o h s -> r = RetPanic.
Proof.
  intros V HD OK E Ho W. pose proof (fin_all_con h s V HD) as CF.
  destruct (match o with Api.Solve _ => true | _ => false end) eqn:Es.
  - destruct o; try discriminate. destruct sol; try contradiction. cbn [why_panic_exact] in W.
    apply (proj1 (C18_lemma h s V CF)) in W. cbn [step] in E. unfold on_heap in E. cbn [fst snd solve] in E.
    unfold gd_run, mbind in E. destruct (get_gradient s h) as [h1 [g|]]; [discriminate W|]. congruence.
  - assert (X : why_panic o h h' s -> r = RetPanic) by (apply (C81_lemma pinv h s o h' s' r V E); destruct o; auto; discriminate).
    destruct o; try discriminate; cbn [why_panic why_panic_exact op_ok step] in *; auto; try contradiction.
    + unfold on_heap in E. cbn [fst snd] in E. apply (proj1 (C18_lemma h s V CF)) in W. destruct (get_gradient s h) as [h1 [g|]]; [discriminate W|]. congruence.
    + unfold on_heap in E. cbn [fst snd] in E. apply (proj2 (C18_lemma h s V CF)) in W. destruct (get_jacobian s h) as [h1 [g|]]; [discriminate W|]. congruence.
    + destruct c; try tauto; apply X; now left.
    + apply X. now apply (one_con h s k V HD OK).
Qed.
Lemma C81_history_lemma pinv os rs (h h' : heap xR) s s' o : exact_pinv pinv -> panics_only_on_empty pinv ->
  run pinv init os rs (h, s) -> few (length os) -> Forall (fun o => Forall fin (unchecked o)) os ->
  op_ok h o -> Forall fin (op_nums o) -> step pinv (h, s) o = ((h', s'), RetPanic) -> s' = s /\ why_panic_exact o h' s'.
Proof.
  intros PI PE R Fw U OK HF E. apply (C81_exact_lemma pinv h h' s s' o); auto.
  - exact (reachable_valid pinv os rs (h, s) R Fw).
  - exact (C49_lemma pinv os rs (h, s) R U).
Qed.
Lemma C81_back_lemma pinv os rs (h h' : heap xR) s s' o r :
  run pinv init os rs (h, s) -> few (length os) -> Forall (fun o => Forall fin (unchecked o)) os ->
  op_ok h o -> step pinv (h, s) o = ((h', s'), r) ->
  match o with Api.Solve (GradientBased _) => True | Api.Solve _ | CheckGradients _ _ _ => False | _ => True end ->
  why_panic_exact o h s -> r = RetPanic.
Proof.
  intros R Fw U OK E Ho W. apply (C81_converse_lemma pinv h h' s s' o); auto.
  - exact (reachable_valid pinv os rs (h, s) R Fw).
  - exact (C49_lemma pinv os rs (h, s) R U).
Qed.
Lemma C81_free_lemma pinv os rs (h h' : heap xR) s s' sol r : exact_pinv pinv -> panics_only_on_empty pinv ->
  run pinv init os rs (h, s) -> few (length os) -> Forall (fun o => Forall fin (unchecked o)) os ->
  (forall k l1 l2, In k (s_cons s) -> getK h k <> EqualLength l1 l2) -> get_n_dofs h s <> 0%nat -> Forall fin (solver_nums sol) ->
  step pinv (h, s) (Api.Solve sol) = ((h', s'), r) -> r <> RetPanic.
Proof.
  intros PI PE R Fw U NE ND HF E ->.
  destruct (C81_history_lemma pinv os rs h h' s s' (Api.Solve sol)) as [-> W]; auto; [exact I|].
  assert (S : struct_eq h h').
  { cbn [step] in E. unfold on_heap in E. cbn [fst snd] in E. destruct (solve pinv sol s h) as [h1 [x|]] eqn:Es; [discriminate|]. injection E as <-.
    pose proof (solve_frame pinv sol s h) as X. rewrite Es in X. now apply (frame_struct s). }
  assert (NC : ~ collapsed h' s).
  { intros (k & Hk & l1 & l2 & Ek & _). rewrite (struct_getK _ _ _ S) in Ek. now apply (NE k l1 l2). }
  rewrite (n_dofs_any h h') in ND. destruct sol; simpl in W; tauto.
Qed.
