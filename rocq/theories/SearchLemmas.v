(** * Line search and solver loops in any arithmetic *)
From Coq Require Import List ZArith NArith Arith Bool Lia Sorted.
From Verif Require Import Arith Vec Prim Cons Sketch Solve Api Spec SolverSpec
  HeapLemmas SolveLemmas WfLemmas DataLemmas SpecLemmas GradLemmas PureLemmas.
Import ListNotations.

Section S.
Context {F : Type} {A : Arith F}.

Lemma valid_struct (h h' : heap F) s : valid h s -> struct_eq h h' -> valid h' s.
Proof.
  intros V S. destruct V as [V1 V2 V3 V4 V5 V6]. split; auto.
  - eapply heap_ok_struct; eauto.
  - intros c Hc. eapply grows_cell; [apply struct_grows; eauto | auto].
  - intros k Hk. destruct S as (_ & -> & _). auto.
Qed.
Lemma frame_struct s (h h' : heap F) : frame s h h' -> struct_eq h h'.
Proof. now intros [H _]. Qed.
Lemma frame_refl s (h : heap F) : frame s h h.
Proof. apply frame_pre. Qed.
Lemma frame_trans s (h1 h2 h3 : heap F) : frame s h1 h2 -> frame s h2 h3 -> frame s h1 h3.
Proof. apply frame_pre. Qed.
Lemma sd_frame_of s (h h' : heap F) : sdeq h h' -> frame s h h'.
Proof. intros [H1 H2]; split; [auto | intros c _; now apply H2]. Qed.
Lemma sd_refl' (h : heap F) : sdeq h h.
Proof. apply sd_pre. Qed.
Lemma sd_trans (h1 h2 h3 : heap F) : sdeq h1 h2 -> sdeq h2 h3 -> sdeq h1 h3.
Proof. apply sd_pre. Qed.
Lemma gradient_sd s (h h' : heap F) r : get_gradient s h = (h', r) -> sdeq h h'.
Proof. intros E. pose proof (get_gradient_sd s h) as H. now rewrite E in H. Qed.
Lemma jacobian_sd s (h h' : heap F) r : get_jacobian s h = (h', r) -> sdeq h h'.
Proof. intros E. pose proof (get_jacobian_sd s h) as H. now rewrite E in H. Qed.
Lemma set_frame s v (h h' : heap F) r : set_data s v h = (h', r) -> frame s h h'.
Proof. intros E. pose proof (set_data_frame' s v h) as H. now rewrite E in H. Qed.
Lemma ls_frame s dir g (h h' : heap F) r : line_search_wolfe s dir g h = (h', r) -> frame s h h'.
Proof.
  intros E. pose proof (line_search_pres _ (frame_pre s) s (set_data_frame' s) (sd_is_frame s _ (get_gradient_sd s)) dir g h) as H.
  now rewrite E in H.
Qed.

(** ** at_point *)
Lemma at_frame h s x hx : valid h s -> (at_point h s x hx <-> frame s h hx /\ get_data hx s = x).
Proof.
  intros V. unfold at_point, frame. rewrite same_structure_iff. unfold data_eq, unreg. split.
  - intros (H1 & H2 & H3). split; [split|]; auto. intros c Hc. apply H3. now rewrite (valid_reg _ _ _ V).
  - intros [[H1 H2] H3]. split; [auto|split; [auto|]]. intros c Hc. apply H2. now rewrite <- (valid_reg _ _ _ V).
Qed.
Lemma flat_eq (h h' : heap F) cs : flat_map (prim_data h') cs = flat_map (prim_data h) cs ->
  forall c, In c cs -> prim_data h' c = prim_data h c.
Proof.
  induction cs as [|x cs IH]; intros E c Hc; [destruct Hc|]. simpl in E.
  apply app_eq_app in E as (l & [[E1 E2]|[E1 E2]]);
  (assert (L : length (prim_data h' x) = length (prim_data h x)) by (rewrite !prim_data_dim; auto);
   rewrite E1, app_length in L; destruct l; [rewrite app_nil_r in E1; simpl in E2 | simpl in L; lia]; destruct Hc as [<-|Hc]; auto).
Qed.
Lemma at_unique h s x hx hy : at_point h s x hx -> at_point h s x hy -> valid h s -> sdeq hx hy.
Proof.
  intros H1 H2 V. pose proof (proj1 H1) as S1. pose proof (proj1 H2) as S2.
  rewrite same_structure_iff in S1, S2. split.
  - destruct S1 as (A1&A2&A3&A4&A5&A6&A7), S2 as (B1&B2&B3&B4&B5&B6&B7).
    unfold struct_eq. rewrite B1, B2, B3, B4, B5, A1, A2, A3, A4, A5. do 5 (split; [auto|]). split.
    + intros l. destruct (A6 l) as [-> ->], (B6 l) as [-> ->]. auto.
    + intros l. now rewrite A7, B7.
  - intros c _. destruct (in_dec pcell_dec c (cells s)) as [Hc|Hc].
    + apply (flat_eq hx hy (cells s)); auto. destruct H1 as (_&E1&_), H2 as (_&E2&_). unfold get_data in *. congruence.
    + destruct H1 as (_&_&E1), H2 as (_&_&E2).
      rewrite E1, E2; auto; intros R; apply Hc; now apply registered_sub.
Qed.

(** ** Line search *)
Definition ls_ok (h : heap F) s d m (n : nat) (h' : heap F) (r : out (ls_res F)) : Prop :=
  match r with
  | Val (LOk a) => exists k, k < n /\ trial h s d m k a /\ at_point h s (vadd (get_data h s) (vscale a d)) h' /\
      sufficient_decrease h s d m a true /\ curvature h s d m a true
  | Val (LErr SearchFailed) => exists k a, S k = n /\ trial h s d m k a /\
      at_point h s (vadd (get_data h s) (vscale a d)) h' /\
      (sufficient_decrease h s d m a false \/ curvature h s d m a false)
  | Val (LErr NotDescentDirection) => False
  | Panic => True
  end.
Lemma ls_loop_ok h s d m : valid h s -> forall n k a h1 h' r, n <> 0 -> frame s h h1 -> trial h s d m k a ->
  ls_loop s (get_data h s) d (get_loss h s) m (wolfe_c2 *f m) n a h1 = (h', r) -> ls_ok h s d m (k + n) h' r.
Proof.
  intros V. induction n as [|n IH]; intros k a h1 h' r Hn Hf Ht E; [now destruct Hn|]. simpl in E.
  unfold mbind at 1 in E. destruct (set_data s _ h1) as [h2 [[]|]] eqn:Es; [|injection E as <- <-; exact I].
  assert (F2 : frame s h h2) by (eapply frame_trans; [eauto | eapply set_frame; eauto]).
  assert (V1 : valid h1 s) by (eapply valid_struct; [eauto | apply (frame_struct s); auto]).
  pose proof (C09_set_get _ _ _ _ V1 Es) as G2.
  assert (P2 : at_point h s (vadd (get_data h s) (vscale a d)) h2) by (apply at_frame; auto).
  destruct (fle (get_loss h2 s) _) eqn:Ed.
  - assert (D : sufficient_decrease h s d m a true) by (exists h2; split; auto).
    unfold mbind in E. destruct (get_gradient s h2) as [h3 [g|]] eqn:Eg; [|injection E as <- <-; exact I].
    pose proof (gradient_sd _ _ _ _ Eg) as S3.
    assert (F3 : frame s h h3) by (eapply frame_trans; [eauto | now apply sd_frame_of]).
    assert (P3 : at_point h s (vadd (get_data h s) (vscale a d)) h3).
    { apply at_frame; auto. split; auto. now rewrite (sd_get_data _ _ _ S3). }
    destruct (fge (vdot g d) _) eqn:Ec.
    + injection E as <- <-. exists k. split; [lia|]. split; [auto|]. split; [auto|]. split; [auto|].
      exists h2, g. split; [auto|]. rewrite Eg. auto.
    + assert (C : curvature h s d m a false) by (exists h2, g; split; [auto|]; rewrite Eg; auto).
      destruct n as [|n].
      * simpl in E. injection E as <- <-. exists k, a. split; [lia|]. auto.
      * replace (k + S (S n)) with (S k + S n) by lia. eapply IH; [lia | exact F3 | | exact E]. now apply trial_grow.
  - assert (D : sufficient_decrease h s d m a false) by (exists h2; split; auto).
    destruct n as [|n].
    + simpl in E. injection E as <- <-. exists k, a. split; [lia|]. auto.
    + replace (k + S (S n)) with (S k + S n) by lia. eapply IH; [lia | exact F2 | | exact E]. now apply trial_shrink.
Qed.
Lemma line_search_spec h s d g h' r : valid h s -> line_search_wolfe s d g h = (h', r) ->
  (fge (vdot g d) f0 = true /\ h' = h /\ r = Val (LErr NotDescentDirection)) \/
  (fge (vdot g d) f0 = false /\ ls_ok h s d (vdot g d) 15 h' r).
Proof.
  intros V E. unfold line_search_wolfe in E. destruct (fge _ f0) eqn:Em; [left; now inversion E | right].
  split; auto. change 15 with (0 + 15).
  eapply (ls_loop_ok h s d _ V ls_max_iter 0); [discriminate | apply frame_refl | apply trial_first | exact E].
Qed.

(** ** Gradient descent *)
Definition gd_result s P (h : heap F) h' r : Prop := exists n hn,
  n <= N.to_nat (gd_max P) /\ gd_steps s h n hn /\
  match r with
  | Val (SOk k) => k = n /\ exists g, get_gradient s hn = (h', Val g) /\
      (flt (vnorm g) (gd_min_grad P) = true \/ flt (get_loss hn s) (gd_min_loss P) = true \/ n = N.to_nat (gd_max P))
  | Val (SErr e) => n < N.to_nat (gd_max P) /\ exists h1 g le, get_gradient s hn = (h1, Val g) /\ e = LineSearch le /\
      line_search_wolfe s (vneg g) g h1 = (h', Val (LErr le))
  | Panic => True
  end.
Lemma gd_loop_spec s P h : forall n it hn h1 g h' r, gd_steps s h it hn ->
  get_gradient s hn = (h1, Val g) -> it + n = N.to_nat (gd_max P) ->
  gd_loop s P n it g (vnorm g) (get_loss hn s) h1 = (h', r) -> gd_result s P h h' r.
Proof.
  induction n as [|n IH]; intros it hn h1 g h' r Hs Hg Hn E; simpl in E.
  - injection E as <- <-. exists it, hn. split; [lia|]. split; [auto|]. split; auto. exists g. split; auto. right; right; lia.
  - destruct (flt (vnorm g) _) eqn:E1.
    { injection E as <- <-. exists it, hn. split; [lia|]. split; [auto|]. split; auto. exists g. split; auto. }
    destruct (flt (get_loss hn s) _) eqn:E2.
    { injection E as <- <-. exists it, hn. split; [lia|]. split; [auto|]. split; auto. exists g. split; auto. }
    unfold mbind at 1 in E. destruct (line_search_wolfe s _ g h1) as [h2 [[alpha|le]|]] eqn:El.
    + unfold mbind at 1 in E. destruct (set_data s _ h2) as [h3 [[]|]] eqn:Es.
      * assert (S3 : gd_steps s h (S it) h3).
        { eapply gd_step; eauto. rewrite <- (sd_get_data _ _ s (gradient_sd _ _ _ _ Hg)). exact Es. }
        unfold mbind in E. destruct (get_gradient s h3) as [h4 [g'|]] eqn:Eg.
        -- eapply IH; eauto. lia.
        -- injection E as <- <-. exists (S it), h3. split; [lia|]. split; auto.
      * injection E as <- <-. exists it, hn. split; [lia|]. split; auto.
    + injection E as <- <-. exists it, hn. split; [lia|]. split; auto. split; [lia|]. exists h1, g, le. auto.
    + injection E as <- <-. exists it, hn. split; [lia|]. split; auto.
Qed.
Lemma gd_run_spec s P h h' r : gd_run s P h = (h', r) -> gd_result s P h h' r.
Proof.
  unfold gd_run, mbind. destruct (get_gradient s h) as [h1 [g|]] eqn:Eg.
  - intros E. rewrite (sd_get_loss _ _ s (gradient_sd _ _ _ _ Eg)) in E.
    eapply (gd_loop_spec s P h _ 0 h); [apply gd_start | exact Eg | | exact E]. auto.
  - intros E. injection E as <- <-. exists 0, h. split; [lia|]. split; [apply gd_start|exact I].
Qed.

(** ** BFGS *)
Definition bfgs_result s P (h : heap F) h' r : Prop := exists n k b hn data H,
  (N.of_nat n <= bf_max P)%N /\ bfgs_steps s h n k b hn data H /\
  match r with
  | Val (SOk it) => it = N.of_nat n /\
      ((it = bf_max P /\ h' = hn) \/
       (flt (get_loss hn s) (bf_min_loss P) = true /\ h' = hn) \/
       (exists g, get_gradient s hn = (h', Val g) /\ flt (vnorm_inf g) (bf_grad P) = true))
  | Val (SErr e) => (N.of_nat n < bf_max P)%N /\ flt (get_loss hn s) (bf_min_loss P) = false /\
      exists h1 g, get_gradient s hn = (h1, Val g) /\
      match e with
      | NonFiniteGradient => all_finite g = false /\ h' = h1
      | NonFiniteDirection => flt (vnorm_inf g) (bf_grad P) = false /\ all_finite g = true /\ all_finite (mvec (mneg H) g) = false /\ h' = h1
      | LineSearch le => flt (vnorm_inf g) (bf_grad P) = false /\ le = NotDescentDirection /\ line_search_wolfe s (mvec (mneg H) g) g h1 = (h', Val (LErr NotDescentDirection))
      | FailedTwice => flt (vnorm_inf g) (bf_grad P) = false /\ b = true /\ line_search_wolfe s (mvec (mneg H) g) g h1 = (h', Val (LErr SearchFailed))
      | PseudoInverse | OutOfFuel => False
      end
  | Panic => True
  end.
Lemma bfgs_resets s (h : heap F) n k b hn data H : bfgs_steps s h n k b hn data H -> k + (if b then 0 else 1) <= n + 1.
Proof. induction 1; simpl in *; lia || (destruct b; lia). Qed.
Lemma bfgs_loop_spec s P h : forall fuel n k b hn data H h' r, bfgs_steps s h n k b hn data H ->
  (N.of_nat n <= bf_max P)%N -> fuel + (n + k) >= 2 * N.to_nat (bf_max P) + 2 ->
  bfgs_loop s P fuel (N.of_nat n) data H b hn = (h', r) -> bfgs_result s P h h' r.
Proof.
  induction fuel as [|fuel IH]; intros n k b hn data H h' r Hs Hm Hf E.
  { exfalso. pose proof (bfgs_resets _ _ _ _ _ _ _ _ Hs). assert (n <= N.to_nat (bf_max P)) by lia.
    destruct b; simpl in *; lia. }
  assert (X : Panic = r -> bfgs_result s P h h' r).
  { intros <-. exists n, k, b, hn, data, H. auto. }
  simpl in E. destruct (N.of_nat n <? bf_max P)%N eqn:En; simpl in E.
  2:{ injection E as <- <-. apply N.ltb_ge in En. exists n, k, b, hn, data, H. split; [auto|]. split; [auto|].
      split; auto. left. split; auto. lia. }
  apply N.ltb_lt in En.
  destruct (flt (get_loss hn s) _) eqn:El.
  { injection E as <- <-. exists n, k, b, hn, data, H. split; [auto|]. split; [auto|]. split; auto. }
  unfold mbind at 1 in E. destruct (get_gradient s hn) as [h1 [g|]] eqn:Eg; [|injection E as <- <-; auto].
  destruct (all_finite g) eqn:Ef; simpl in E.
  2:{ injection E as <- <-. exists n, k, b, hn, data, H. split; [auto|]. split; [auto|]. split; [auto|]. split; auto.
      exists h1, g. auto. }
  destruct (flt (vnorm_inf g) _) eqn:Eb.
  { injection E as <- <-. exists n, k, b, hn, data, H. split; [auto|]. split; [auto|]. split; auto. right; right; eauto. }
  destruct (all_finite (mvec (mneg H) g)) eqn:Ep; simpl in E.
  2:{ injection E as <- <-. exists n, k, b, hn, data, H. split; [auto|]. split; [auto|]. split; [auto|]. split; auto.
      exists h1, g. auto. }
  unfold mbind at 1 in E. destruct (line_search_wolfe s _ g h1) as [h2 [[alpha|[|]]|]] eqn:Es; [| | |injection E as <- <-; auto].
  - unfold mbind at 1 in E. destruct (set_data s _ h2) as [h3 [[]|]] eqn:Ed; [|injection E as <- <-; auto].
    unfold mbind at 1 in E. destruct (get_gradient s h3) as [h4 [g'|]] eqn:Eg'.
    2:{ injection E as <- <-; auto. }
    replace (N.of_nat n + 1)%N with (N.of_nat (S n)) in E by lia.
    eapply IH; [eapply bfgs_accept; eauto | lia | lia | exact E].
  - injection E as <- <-. exists n, k, b, hn, data, H. split; [auto|]. split; [auto|]. split; [auto|]. split; auto.
    exists h1, g. auto.
  - destruct b.
    + injection E as <- <-. exists n, k, true, hn, data, H. split; [auto|]. split; [auto|]. split; [auto|]. split; auto.
      exists h1, g. auto.
    + eapply IH; [eapply bfgs_reset; eauto | lia | lia | exact E].
Qed.
Lemma bfgs_run_spec s P h h' r : bfgs_run s P h = (h', r) -> bfgs_result s P h h' r.
Proof.
  unfold bfgs_run. intros E. eapply (bfgs_loop_spec s P h _ 0 0 false h); [| lia | | exact E]; [|lia].
  rewrite get_data_length. apply bfgs_start.
Qed.
Lemma bfgs_fuel s P : forall f1 f2 n data H b h h' r, f1 <= f2 ->
  bfgs_loop s P f1 n data H b h = (h', r) -> r <> Val (SErr OutOfFuel) -> bfgs_loop s P f2 n data H b h = (h', r).
Proof.
  induction f1 as [|f1 IH]; intros f2 n data H b h h' r Hl E Hr.
  - simpl in E. injection E as <- <-. now destruct Hr.
  - destruct f2 as [|f2]; [lia|]. simpl in *. destruct (negb _); auto. destruct (flt _ _); auto.
    unfold mbind in *. destruct (get_gradient s h) as [h1 [g|]]; auto.
    destruct (negb _); auto. destruct (flt _ _); auto. destruct (negb _); auto.
    destruct (line_search_wolfe s _ g h1) as [h2 [[alpha|[|]]|]]; auto.
    + destruct (set_data s _ h2) as [h3 [[]|]]; auto. destruct (get_gradient s h3) as [h4 [g'|]]; auto.
      eapply IH; eauto. lia.
    + destruct b; auto. eapply IH; eauto. lia.
Qed.

(** ** Gauss-Newton and Levenberg-Marquardt *)
Section Nls.
Variable pinv : mat F -> F -> pinv_res (mat F).
Definition nls_result s normal ml eps st max (h : heap F) h' r : Prop := exists n l hn,
  n <= max /\ nls_steps pinv s normal eps st h n l hn /\
  match r with
  | Val (SOk k) => k = n /\ h' = hn /\ (n = max \/ fgt l ml = false)
  | Val (SErr e) => n < max /\ e = PseudoInverse /\ exists J, get_jacobian s hn = (h', Val J) /\
      pinv (normal (get_n_dofs hn s) J) eps = PErr
  | Panic => True
  end.
Lemma nls_loop_spec s normal ml eps st h : forall n it l hn h' r max, nls_steps pinv s normal eps st h it l hn ->
  it + n = max -> nls_loop pinv s normal ml eps st n it l hn = (h', r) -> nls_result s normal ml eps st max h h' r.
Proof.
  induction n as [|n IH]; intros it l hn h' r max Hs Hn E; simpl in E.
  - injection E as <- <-. exists it, l, hn. split; [lia|]. split; auto. split; auto. split; auto. left; lia.
  - assert (X : Panic = r -> nls_result s normal ml eps st max h h' r).
    { intros <-. exists it, l, hn. split; [lia|]. auto. }
    destruct (fgt l ml) eqn:El; simpl in E.
    2:{ injection E as <- <-. exists it, l, hn. split; [lia|]. split; auto. }
    unfold mbind at 1 in E. destruct (get_jacobian s hn) as [h1 [J|]] eqn:Ej; [|injection E as <- <-; auto].
    rewrite get_data_length in E.
    destruct (nls_step _ _ _ _ _ _ _) as [x| |] eqn:Ex.
    + unfold mbind in E. destruct (set_data s x h1) as [h2 [[]|]] eqn:Es; [|injection E as <- <-; auto].
      eapply IH; [|..|exact E]; [eapply nls_iter; eauto | lia].
    + injection E as <- <-. exists it, l, hn. split; [lia|]. split; auto. split; [lia|]. split; auto. exists J. split; auto.
      unfold nls_step in Ex. destruct (pinv _ eps); auto; discriminate.
    + injection E as <- <-. auto.
Qed.
Lemma gn_run_spec s P h h' r : gn_run pinv s P h = (h', r) ->
  nls_result s gn_normal (gn_min_loss P) (gn_eps P) (gn_step P) (N.to_nat (gn_max P)) h h' r.
Proof. intros E. eapply nls_loop_spec; [| |exact E]; [apply nls_start | auto]. Qed.
Lemma lm_run_spec s P h h' r : lm_run pinv s P h = (h', r) ->
  nls_result s (lm_normal (lm_beta P)) (lm_min_loss P) (lm_eps P) (lm_step P) (N.to_nat (lm_max P)) h h' r.
Proof. intros E. eapply nls_loop_spec; [| |exact E]; [apply nls_start | auto]. Qed.
End Nls.
End S.
