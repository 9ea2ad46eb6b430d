(** * Solver runs in any arithmetic: results, frames, finite data *)
From Coq Require Import List ZArith NArith Arith Bool Lia Sorted.
From Verif Require Import Arith Vec Prim Cons Sketch Solve Api Spec SolverSpec
  HeapLemmas SolveLemmas WfLemmas DataLemmas SpecLemmas GradLemmas PureLemmas SearchLemmas.
Import ListNotations.

Section S.
Context {F : Type} {A : Arith F}.

(** ** values of gradients *)
Lemma prim_grad_dim (h : heap F) c : length (prim_grad h c) = dim c.
Proof. destruct c; reflexivity. Qed.
Lemma flat_grad_length (h : heap F) cs : length (flat_map (prim_grad h) cs) = dims cs.
Proof. induction cs as [|c cs IH]; simpl; auto. rewrite app_length, IH, prim_grad_dim. reflexivity. Qed.
Lemma stored_length (h h' : heap F) s : length (stored_gradient s h) = get_n_dofs h' s.
Proof. rewrite n_dofs_dims. apply flat_grad_length. Qed.
Lemma flat_finite (h : heap F) cs : forallb (fun c => all_finite (prim_grad h c)) cs = true -> all_finite (flat_map (prim_grad h) cs) = true.
Proof.
  induction cs as [|c cs IH]; simpl; auto. intros H. apply andb_true_iff in H as [H1 H2]. rewrite all_finite_app, H1. simpl. auto.
Qed.
Lemma gradient_val s (h h' : heap F) g : get_gradient s h = (h', Val g) -> all_finite g = true /\ length g = get_n_dofs h s.
Proof.
  unfold get_gradient, mbind at 1. destruct (mfor _ _ _) as [h1 [u|]]; [|discriminate].
  unfold mbind, massert. destruct (forallb _ _) eqn:E; [|discriminate]. intros H. injection H as <- <-.
  split; [now apply flat_finite | apply stored_length].
Qed.
Lemma jacobian_val s : forall ks (h h' : heap F) J, jacobian_rows s ks h = (h', Val J) ->
  length J = length ks /\ List.Forall (fun r => length r = get_n_dofs h s) J.
Proof.
  induction ks as [|k ks IH]; intros h h' J H; simpl in H; [injection H as _ <-; auto|].
  unfold mbind at 1 in H. destruct (update_gradient _ _) as [h1 [u|]]; [|discriminate].
  unfold mbind, mret in H. destruct (jacobian_rows s ks h1) as [h2 [rows|]] eqn:E; [|discriminate].
  injection H as <- <-. apply IH in E as [E1 E2]. split; [simpl; auto|]. constructor; [apply stored_length|].
  rewrite !n_dofs_dims in *. exact E2.
Qed.

(** ** frames of the runs *)
Lemma gd_steps_frame s h0 n (h : heap F) : gd_steps s h0 n h -> frame s h0 h.
Proof.
  induction 1 as [|n h h1 g alpha h2 h3 Hs IH Hg Hl Hd]; [apply frame_refl|].
  eapply frame_trans; [exact IH|]. eapply frame_trans; [eapply sd_frame_of, gradient_sd, Hg|].
  eapply frame_trans; [eapply ls_frame, Hl | eapply set_frame, Hd].
Qed.
Lemma bfgs_steps_frame s h0 n k b (h : heap F) d H : bfgs_steps s h0 n k b h d H -> frame s h0 h.
Proof.
  induction 1; [apply frame_refl| |].
  - eapply frame_trans; [eassumption|]. eapply frame_trans; [eapply sd_frame_of, gradient_sd; eassumption|].
    eapply frame_trans; [eapply ls_frame; eassumption|]. eapply frame_trans; [eapply set_frame; eassumption|].
    eapply sd_frame_of, gradient_sd; eassumption.
  - eapply frame_trans; [eassumption|]. eapply frame_trans; [eapply sd_frame_of, gradient_sd; eassumption|].
    eapply ls_frame; eassumption.
Qed.
Lemma bfgs_steps_data s h0 n k b (h : heap F) d H : valid h0 s -> bfgs_steps s h0 n k b h d H -> b = false -> get_data h s = d.
Proof.
  intros V S Hb. destruct S; [reflexivity| |discriminate].
  match goal with Hg : get_gradient s h3 = _ |- _ => rewrite (sd_get_data _ _ s (gradient_sd _ _ _ _ Hg)) end.
  eapply C09_set_get; [|eassumption]. eapply valid_struct; [exact V|]. apply (frame_struct s).
  eapply frame_trans; [eapply bfgs_steps_frame; eassumption|]. eapply frame_trans; [eapply sd_frame_of, gradient_sd; eassumption|].
  eapply ls_frame; eassumption.
Qed.
Lemma nls_steps_frame pinv s nm eps st h0 n l (h : heap F) : nls_steps pinv s nm eps st h0 n l h -> frame s h0 h.
Proof.
  induction 1; [apply frame_refl|]. eapply frame_trans; [eassumption|].
  eapply frame_trans; [eapply sd_frame_of, jacobian_sd; eassumption | eapply set_frame; eassumption].
Qed.
Lemma n_dofs_any (h h' : heap F) s : get_n_dofs h s = get_n_dofs h' s.
Proof. now rewrite !n_dofs_dims. Qed.
Lemma bfgs_steps_length s h0 n k b (h : heap F) d H : bfgs_steps s h0 n k b h d H -> length d = get_n_dofs h0 s.
Proof.
  induction 1; [apply get_data_length| |auto].
  match goal with Hd : set_data s ?v h2 = (h3, Val tt) |- _ => apply set_data_inv in Hd as (Hl & _); rewrite Hl end.
  apply n_dofs_any.
Qed.

(** ** C21 *)
Lemma gd_solve pinv P s (h h' : heap F) r : solve pinv (GradientBased P) s h = (h', r) ->
  exists r0, gd_run s P h = (h', r0) /\ r = match r0 with Val x => Val (sforget x) | Panic => Panic end.
Proof. simpl. unfold mbind, mret. destruct (gd_run s P h) as [h1 [x|]]; intros E; injection E as <- <-; eauto. Qed.
Lemma bfgs_solve pinv P s (h h' : heap F) r : solve pinv (BFGS P) s h = (h', r) ->
  exists r0, bfgs_run s P h = (h', r0) /\ r = match r0 with Val x => Val (sforget x) | Panic => Panic end.
Proof. simpl. unfold mbind, mret. destruct (bfgs_run s P h) as [h1 [x|]]; intros E; injection E as <- <-; eauto. Qed.
Lemma gn_solve pinv P s (h h' : heap F) r : solve pinv (GaussNewton P) s h = (h', r) ->
  exists r0, gn_run pinv s P h = (h', r0) /\ r = match r0 with Val x => Val (sforget x) | Panic => Panic end.
Proof. simpl. unfold mbind, mret. destruct (gn_run pinv s P h) as [h1 [x|]]; intros E; injection E as <- <-; eauto. Qed.
Lemma lm_solve pinv P s (h h' : heap F) r : solve pinv (LevenbergMarquardt P) s h = (h', r) ->
  exists r0, lm_run pinv s P h = (h', r0) /\ r = match r0 with Val x => Val (sforget x) | Panic => Panic end.
Proof. simpl. unfold mbind, mret. destruct (lm_run pinv s P h) as [h1 [x|]]; intros E; injection E as <- <-; eauto. Qed.

Lemma C21_fuel_lemma pinv sol s (h : heap F) : snd (solve pinv sol s h) <> Val (SErr OutOfFuel).
Proof.
  destruct (solve pinv sol s h) as [h' r] eqn:E. simpl. intros ->. destruct sol.
  - apply gd_solve in E as (r0 & E & Hr). apply gd_run_spec in E as (n & hn & _ & _ & E).
    destruct r0 as [[?|e]|]; try discriminate. injection Hr as <-. destruct E as (_ & h1 & g & le & _ & E & _). discriminate.
  - apply bfgs_solve in E as (r0 & E & Hr). apply bfgs_run_spec in E as (n & k & b & hn & d & H & _ & _ & E).
    destruct r0 as [[?|e]|]; try discriminate. injection Hr as <-. now destruct E as (_ & _ & h1 & g & _ & E).
  - apply gn_solve in E as (r0 & E & Hr). apply gn_run_spec in E as (n & l & hn & _ & _ & E).
    destruct r0 as [[?|e]|]; try discriminate. injection Hr as <-. destruct E as (_ & E & _). discriminate.
  - apply lm_solve in E as (r0 & E & Hr). apply lm_run_spec in E as (n & l & hn & _ & _ & E).
    destruct r0 as [[?|e]|]; try discriminate. injection Hr as <-. destruct E as (_ & E & _). discriminate.
Qed.
Lemma C21_bfgs_fuel_lemma s P (h : heap F) f : 2 * N.to_nat (bf_max P) + 2 <= f ->
  bfgs_loop s P f 0 (get_data h s) (mident (get_n_dofs h s)) false h = bfgs_run s P h.
Proof.
  intros Hf. unfold bfgs_run. rewrite get_data_length.
  destruct (bfgs_loop s P (2 * N.to_nat (bf_max P) + 2) 0 _ _ _ h) as [h' r] eqn:E.
  eapply bfgs_fuel; [exact Hf | exact E |]. intros ->.
  assert (X : bfgs_run s P h = (h', Val (SErr OutOfFuel))) by (unfold bfgs_run; now rewrite get_data_length).
  apply bfgs_run_spec in X as (n & k & b & hn & d & H & _ & _ & X). now destruct X as (_ & _ & h1 & g & _ & X).
Qed.
Lemma C21_gd_lemma s P (h h' : heap F) r : gd_run s P h = (h', r) ->
  exists n hn, n <= N.to_nat (gd_max P) /\ gd_steps s h n hn /\ (forall k, r = Val (SOk k) -> k = n).
Proof. intros E. apply gd_run_spec in E as (n & hn & H1 & H2 & H3). exists n, hn. split; [auto|split; auto]. intros k ->. apply H3. Qed.
Lemma C21_bfgs_lemma s P (h h' : heap F) r : bfgs_run s P h = (h', r) ->
  exists n k b hn d H, (N.of_nat n <= bf_max P)%N /\ k <= n + 1 /\ bfgs_steps s h n k b hn d H /\
    (forall it, r = Val (SOk it) -> it = N.of_nat n).
Proof.
  intros E. apply bfgs_run_spec in E as (n & k & b & hn & d & H & H1 & H2 & H3). exists n, k, b, hn, d, H.
  split; [auto|split]; [|split; auto]; [|intros it ->; apply H3].
  apply bfgs_resets in H2. lia.
Qed.
Lemma C21_gn_lemma pinv s P (h h' : heap F) r : gn_run pinv s P h = (h', r) ->
  exists n l hn, n <= N.to_nat (gn_max P) /\ nls_steps pinv s gn_normal (gn_eps P) (gn_step P) h n l hn /\
    (forall k, r = Val (SOk k) -> k = n /\ h' = hn).
Proof. intros E. apply gn_run_spec in E as (n & l & hn & H1 & H2 & H3). exists n, l, hn. split; [auto|split; auto]. intros k ->. intuition. Qed.
Lemma C21_lm_lemma pinv s P (h h' : heap F) r : lm_run pinv s P h = (h', r) ->
  exists n l hn, n <= N.to_nat (lm_max P) /\ nls_steps pinv s (lm_normal (lm_beta P)) (lm_eps P) (lm_step P) h n l hn /\
    (forall k, r = Val (SOk k) -> k = n /\ h' = hn).
Proof. intros E. apply lm_run_spec in E as (n & l & hn & H1 & H2 & H3). exists n, l, hn. split; [auto|split; auto]. intros k ->. intuition. Qed.

(** ** C22 *)
Lemma gradient_again s (h h' : heap F) g : valid h s -> get_gradient s h = (h', Val g) -> snd (get_gradient s h') = Val g.
Proof. intros V E. pose proof (proj1 (C17_twice_lemma h s V)) as H. rewrite E in H. exact H. Qed.
Lemma C22_gd_lemma s P (h h' : heap F) n : valid h s -> gd_run s P h = (h', Val (SOk n)) ->
  flt (get_loss h' s) (gd_min_loss P) = true \/
  (exists g, snd (get_gradient s h') = Val g /\ flt (vnorm g) (gd_min_grad P) = true) \/
  n = N.to_nat (gd_max P).
Proof.
  intros V E. apply gd_run_spec in E as (m & hn & H1 & H2 & -> & g & Hg & H3).
  assert (Vn : valid hn s) by (eapply valid_struct; [exact V | apply (frame_struct s); eapply gd_steps_frame; eauto]).
  rewrite (sd_get_loss _ _ s (gradient_sd _ _ _ _ Hg)). destruct H3 as [H3|[H3|H3]]; auto.
  right; left. exists g. split; auto. eapply gradient_again; eauto.
Qed.
Lemma C22_bfgs_lemma s P (h h' : heap F) n : valid h s -> bfgs_run s P h = (h', Val (SOk n)) ->
  flt (get_loss h' s) (bf_min_loss P) = true \/
  (exists g, snd (get_gradient s h') = Val g /\ flt (vnorm_inf g) (bf_grad P) = true) \/
  n = bf_max P.
Proof.
  intros V E. apply bfgs_run_spec in E as (m & k & b & hn & d & H & H1 & H2 & -> & [[H3 ->]|[[H3 ->]|(g & Hg & H3)]]); auto.
  assert (Vn : valid hn s) by (eapply valid_struct; [exact V | apply (frame_struct s); eapply bfgs_steps_frame; eauto]).
  right; left. exists g. split; auto. eapply gradient_again; eauto.
Qed.
Lemma C23_gn_lemma pinv s P (h h' : heap F) n : gn_run pinv s P h = (h', Val (SOk n)) ->
  exists l, nls_steps pinv s gn_normal (gn_eps P) (gn_step P) h n l h' /\ (n = N.to_nat (gn_max P) \/ fgt l (gn_min_loss P) = false).
Proof. intros E. apply gn_run_spec in E as (m & l & hn & _ & H2 & -> & -> & H3). eauto. Qed.
Lemma C23_lm_lemma pinv s P (h h' : heap F) n : lm_run pinv s P h = (h', Val (SOk n)) ->
  exists l, nls_steps pinv s (lm_normal (lm_beta P)) (lm_eps P) (lm_step P) h n l h' /\ (n = N.to_nat (lm_max P) \/ fgt l (lm_min_loss P) = false).
Proof. intros E. apply lm_run_spec in E as (m & l & hn & _ & H2 & -> & -> & H3). eauto. Qed.

(** ** C24 *)
Lemma C24_ok_lemma s d g (h h' : heap F) alpha : valid h s -> line_search_wolfe s d g h = (h', Val (LOk alpha)) ->
  fge (vdot g d) f0 = false /\
  at_point h s (vadd (get_data h s) (vscale alpha d)) h' /\
  fle (get_loss h' s) (get_loss h s +f flit 1 4 *f alpha *f vdot g d) = true /\
  (exists g', snd (get_gradient s h') = Val g' /\ fge (vdot g' d) (flit 9 1 *f vdot g d) = true) /\
  exists k, k < 15 /\ trial h s d (vdot g d) k alpha.
Proof.
  intros V E. apply line_search_spec in E as [(_ & _ & E)|(Hm & k & Hk & Ht & Ha & (x & Hx & Sd) & (y & g' & Hy & Hg & Hc))]; auto; [discriminate|].
  split; [auto|]. split; [auto|]. split; [|split].
  - now rewrite (sd_get_loss _ _ s (at_unique _ _ _ _ _ Hx Ha V)) .
  - exists g'. split; auto. rewrite <- Hg. pose proof (at_unique _ _ _ _ _ Hy Ha V) as U. apply sdeq_iff in U as [U1 U2].
    symmetry. eapply C17_gradient_lemma; eauto.
    eapply valid_struct; [exact V|]. now apply at_frame in Hy as [[Hy _] _].
  - eauto.
Qed.
Lemma C24_reject_lemma s d g (h h' : heap F) : valid h s ->
  (snd (line_search_wolfe s d g h) = Val (LErr NotDescentDirection) <-> fge (vdot g d) f0 = true) /\
  (fge (vdot g d) f0 = true -> line_search_wolfe s d g h = (h, Val (LErr NotDescentDirection))).
Proof.
  intros V. split.
  - destruct (line_search_wolfe s d g h) as [h1 r] eqn:E. apply line_search_spec in E as [(Hm & _ & ->)|[Hm E]]; auto; simpl.
    + tauto.
    + split; [intros -> | congruence]. destruct E.
  - intros H. unfold line_search_wolfe. now rewrite H.
Qed.
Lemma C24_failed_lemma s d g (h h' : heap F) : valid h s -> line_search_wolfe s d g h = (h', Val (LErr SearchFailed)) ->
  exists a, trial h s d (vdot g d) 14 a /\ at_point h s (vadd (get_data h s) (vscale a d)) h' /\
    (sufficient_decrease h s d (vdot g d) a false \/ curvature h s d (vdot g d) a false).
Proof.
  intros V E. apply line_search_spec in E as [(_ & _ & E)|(Hm & k & a & Hk & Ht & Ha & Hf)]; auto; [discriminate|].
  injection Hk as ->. eauto.
Qed.

(** ** C29 *)
Lemma C29_lemma pinv sol s (h : heap F) : valid h s ->
  let h' := fst (solve pinv sol s h) in same_structure h h' /\ forall c, ~ registered s c -> prim_data h' c = prim_data h c.
Proof.
  intros V h'. destruct (solve_frame pinv sol s h) as [H1 H2]. split; [now apply same_structure_iff|].
  intros c Hc. apply H2. unfold unreg. now rewrite <- (valid_reg _ _ _ V).
Qed.

(** ** C30 *)
Lemma C30_gd_lemma pinv s P (h h1 : heap F) g : get_gradient s h = (h1, Val g) ->
  gd_max P = 0%N \/ flt (vnorm g) (gd_min_grad P) = true \/ flt (get_loss h s) (gd_min_loss P) = true ->
  solve pinv (GradientBased P) s h = (h1, Val (SOk tt)).
Proof.
  intros Hg H. simpl. unfold gd_run, mbind. rewrite Hg, (sd_get_loss _ _ s (gradient_sd _ _ _ _ Hg)).
  destruct (N.to_nat (gd_max P)) as [|n] eqn:En; [reflexivity|]. simpl. destruct (flt (vnorm g) _); [reflexivity|].
  destruct H as [H|[H|H]]; [lia | discriminate | now rewrite H].
Qed.
Lemma C30_bfgs_loss_lemma pinv s P (h : heap F) :
  bf_max P = 0%N \/ flt (get_loss h s) (bf_min_loss P) = true -> solve pinv (BFGS P) s h = (h, Val (SOk tt)).
Proof.
  intros H. simpl. unfold bfgs_run, mbind. replace (2 * N.to_nat (bf_max P) + 2) with (S (2 * N.to_nat (bf_max P) + 1)) by lia.
  cbn [bfgs_loop]. destruct (0 <? bf_max P)%N eqn:E; [|reflexivity].
  destruct H as [H|H]; [rewrite H in E; discriminate | simpl; now rewrite H].
Qed.
Lemma C30_bfgs_grad_lemma pinv s P (h h1 : heap F) g : get_gradient s h = (h1, Val g) ->
  flt (vnorm_inf g) (bf_grad P) = true ->
  exists h', solve pinv (BFGS P) s h = (h', Val (SOk tt)) /\ (h' = h \/ h' = h1).
Proof.
  intros Hg H. simpl. unfold bfgs_run, mbind at 1. replace (2 * N.to_nat (bf_max P) + 2) with (S (2 * N.to_nat (bf_max P) + 1)) by lia.
  cbn [bfgs_loop]. destruct (0 <? bf_max P)%N eqn:E; [|exists h; split; [reflexivity|auto]].
  cbn [negb]. destruct (flt (get_loss h s) _); [exists h; split; [reflexivity|auto]|]. unfold mbind. cbv beta. rewrite Hg.
  destruct (gradient_val _ _ _ _ Hg) as [-> _]. simpl. rewrite H. exists h1; split; [reflexivity|auto].
Qed.

(** ** C32 *)
Definition fin_kept (h h' : heap F) : Prop := forall c, all_finite (prim_data h c) = true -> all_finite (prim_data h' c) = true.
Lemma fin_kept_pre : preorder fin_kept.
Proof. split; [intros h c; auto | intros h1 h2 h3 H1 H2 c Hc; auto]. Qed.
Lemma fin_kept_sd {T} (m : M F T) : mpres sdeq m -> mpres fin_kept m.
Proof. intros H h c Hc. destruct (H h) as [_ Hd]. now rewrite (Hd c I). Qed.
Lemma pcell_dec (c c' : pcell) : {c = c'} + {c <> c'}.
Proof. repeat decide equality. Qed.
Lemma prim_set_fin c v : mpres fin_kept (prim_set_data c v).
Proof.
  intros h c' Hc. destruct (pcell_dec c' c) as [->|Hn]; [|rewrite (set_data_other c v h c' Hn); auto].
  destruct c; simpl in *; auto; unfold Point2_set_data, Arc_set_data, Circle_set_data, mbind, massert;
    destruct (all_finite v && _) eqn:E; auto; apply andb_true_iff in E as [E L]; apply Nat.eqb_eq in L; simpl.
  - rewrite getP_setP, Nat.eqb_refl. destruct (l <? _); simpl; [|exact Hc]. destruct v as [|? [|? [|]]]; try discriminate. exact E.
  - rewrite getA_setA, Nat.eqb_refl. destruct (l <? _); simpl; [|exact Hc]. destruct v as [|? [|? [|? [|]]]]; try discriminate. exact E.
  - rewrite getC_setC, Nat.eqb_refl. destruct (l <? _); simpl; [|exact Hc]. destruct v as [|? [|]]; try discriminate. exact E.
Qed.
Lemma set_loop_fin cs : forall v, mpres fin_kept (set_data_loop cs v).
Proof.
  induction cs as [|c cs IH]; intros v h; simpl; [apply fin_kept_pre|].
  refine (mpres_bind _ fin_kept_pre _ _ (prim_set_fin c _) _ h). intros _. apply IH.
Qed.
Lemma set_data_fin s v : mpres fin_kept (set_data s v).
Proof.
  intros h. unfold set_data. refine (mpres_bind _ fin_kept_pre _ _ (mpres_assert _ fin_kept_pre _) _ h). intros _. apply set_loop_fin.
Qed.
Lemma C32_lemma pinv sol s (h : heap F) : valid h s -> finite_data h s -> finite_data (fst (solve pinv sol s h)) s.
Proof.
  intros V H.
  assert (K : fin_kept h (fst (solve pinv sol s h))).
  { apply solve_pres; [apply fin_kept_pre | apply set_data_fin | |]; apply fin_kept_sd; [apply get_gradient_sd | apply get_jacobian_sd]. }
  apply (finite_iff _ _ (valid_keys _ _ V)). apply get_data_finite_iff. intros c Hc. apply K.
  apply (finite_iff _ _ (valid_keys _ _ V)) in H. now apply (proj1 (get_data_finite_iff s h) H).
Qed.

(** ** C33 *)
Lemma C33_lemma pinv sol s (h : heap F) : snd (solve pinv sol s h) <> Val (SErr NonFiniteGradient).
Proof.
  destruct (solve pinv sol s h) as [h' r] eqn:E. simpl. intros ->. destruct sol.
  - apply gd_solve in E as (r0 & E & Hr). apply gd_run_spec in E as (n & hn & _ & _ & E).
    destruct r0 as [[?|e]|]; try discriminate. injection Hr as <-. destruct E as (_ & h1 & g & le & _ & E & _). discriminate.
  - apply bfgs_solve in E as (r0 & E & Hr). apply bfgs_run_spec in E as (n & k & b & hn & d & H & _ & _ & E).
    destruct r0 as [[?|e]|]; try discriminate. injection Hr as <-. destruct E as (_ & _ & h1 & g & Hg & E & _).
    apply gradient_val in Hg as [Hg _]. congruence.
  - apply gn_solve in E as (r0 & E & Hr). apply gn_run_spec in E as (n & l & hn & _ & _ & E).
    destruct r0 as [[?|e]|]; try discriminate. injection Hr as <-. destruct E as (_ & E & _). discriminate.
  - apply lm_solve in E as (r0 & E & Hr). apply lm_run_spec in E as (n & l & hn & _ & _ & E).
    destruct r0 as [[?|e]|]; try discriminate. injection Hr as <-. destruct E as (_ & E & _). discriminate.
Qed.
Lemma C33_panic_lemma pinv s P (h h1 : heap F) : get_gradient s h = (h1, Panic) ->
  (0 < bf_max P)%N -> flt (get_loss h s) (bf_min_loss P) = false -> solve pinv (BFGS P) s h = (h1, Panic).
Proof.
  intros Hg Hm Hl. simpl. unfold bfgs_run, mbind at 1. replace (2 * N.to_nat (bf_max P) + 2) with (S (2 * N.to_nat (bf_max P) + 1)) by lia.
  cbn [bfgs_loop]. apply N.ltb_lt in Hm. rewrite Hm. cbn [negb]. rewrite Hl. unfold mbind. cbv beta. now rewrite Hg.
Qed.
End S.
