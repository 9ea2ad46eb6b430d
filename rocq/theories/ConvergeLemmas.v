(** * Rate of gradient descent (proofs for C65) *)
From Coq Require Import List ZArith NArith Arith Bool Lia Sorted Reals Lra.
From Verif Require Import Arith Vec Prim Cons Sketch Solve Api Spec SolverSpec ArithR ExactSpec
  HeapLemmas SolveLemmas WfLemmas DataLemmas SpecLemmas ExactLemmas GradLemmas PureLemmas LossLemmas
  SignLemmas SearchLemmas StepLemmas RMat ExactRun SolverForms.
Import ListNotations.
Local Open Scope R_scope.

Lemma step_lower i j : (i + j < 15)%nat -> / 16384 <= (3 / 2) ^ i * (/ 2) ^ j.
Proof.
  intros H. assert (H1 : 1 <= (3 / 2) ^ i) by (apply pow_R1_Rle; lra).
  assert (H2 : (/ 2) ^ 14 <= (/ 2) ^ j).
  { replace 14%nat with (j + (14 - j))%nat by lia. rewrite pow_add. 
    assert (0 < (/ 2) ^ j) by (apply pow_lt; lra).
    assert ((/ 2) ^ (14 - j) <= 1) by (rewrite <- (pow1 (14 - j)); apply pow_incr; lra).
    nra. }
  assert (0 < (/ 2) ^ 14) by (apply pow_lt; lra).
  replace (/ 16384) with ((/ 2) ^ 14) by (simpl; lra). nra.
Qed.

Section S.
Variables (s : sketch) (h0 : heap xR).
Hypothesis V : valid h0 s.
Hypothesis CF : all_con_finite h0 s.
Notation okh := (okh s h0).
Notation lossv := (lossv s).

Lemma gd_step_rate h h1 gr alpha h2 h3 : okh h -> get_gradient s h = (h1, Val (FinV gr)) ->
  line_search_wolfe s (vneg (FinV gr)) (FinV gr) h1 = (h2, Val (LOk alpha)) ->
  set_data s (vaxpy alpha (vneg (FinV gr)) (flit 1 0) (get_data h s)) h2 = (h3, Val tt) ->
  okh h3 /\ lossv h3 <= lossv h - / 163840000 * dotL gr gr.
Proof.
  intros Ho Eg El Ed. assert (S1 := gradient_sd _ _ _ _ Eg). assert (Ho1 := ok_sd s h0 _ _ S1 Ho).
  rewrite vneg_R in *.
  assert (V1 := ok_valid s h0 V h1 Ho1).
  destruct (C24_ok_lemma _ _ _ _ _ _ V1 El) as (_ & _ & _ & _ & k & Hk & Ht). apply trial_R in Ht as (i & j & Hij & Ea).
  destruct (search_R s h0 V CF _ _ _ _ _ Ho1 El) as (a & E & Pa & Hm & Ho2 & Ha & Hs & _). subst alpha. injection E as E.
  destruct (ok_set s h0 V _ _ _ (proj1 Ho2) Ed) as [Ho3 Hd]. split; auto.
  assert (S3 : sdeq h2 h3).
  { eapply at_unique; [exact Ha | | exact V1].
    apply at_frame; [exact V1|]. split.
    - eapply frame_trans; [apply at_frame in Ha as [Ha _]; [exact Ha|exact V1] | eapply set_frame, Ed].
    - rewrite Hd, (sd_get_data _ _ s S1), (ok_data s h0 h Ho), vscale_R, vadd_R, vaxpy_R. reflexivity. }
  unfold ExactRun.lossv in *. rewrite (sd_get_loss _ _ s S3). rewrite (sd_get_loss _ _ s S1) in Hs.
  rewrite dot_neg_r in Hs. pose proof (step_lower i j ltac:(lia)) as L. rewrite E in L.
  pose proof (dot_self_nonneg gr). nra.
Qed.
Lemma loss_nn h : okh h -> 0 <= lossv h.
Proof.
  intros Ho. pose proof (get_loss_nn_R h s) as H. unfold not_negative in H. rewrite (ok_loss s h0 CF h Ho), f0_R in H.
  now apply lt_false in H.
Qed.

Lemma gd_loop_rate P e : gd_min_grad P = Fin e -> 0 < e -> forall n it hc h1 gr h' k,
  okh hc -> get_gradient s hc = (h1, Val (FinV gr)) ->
  gd_loop s P n it (FinV gr) (vnorm (FinV gr)) (get_loss hc s) h1 = (h', Val (SOk k)) ->
  okh h' /\ (it <= k)%nat /\ lossv h' + INR (k - it) * (/ 163840000 * e²) <= lossv hc.
Proof.
  intros He Pe. induction n as [|n IH]; intros it hc h1 gr h' k Ho Hg E.
  - simpl in E. injection E as <- <-. assert (S1 := gradient_sd _ _ _ _ Hg). split; [now apply (ok_sd s h0 hc)|]. split; auto.
    rewrite Nat.sub_diag. unfold ExactRun.lossv. rewrite (sd_get_loss _ _ s S1). simpl. lra.
  - assert (S1 := gradient_sd _ _ _ _ Hg).
    assert (D : okh h1 /\ (it <= it)%nat /\ lossv h1 + INR (it - it) * (/ 163840000 * e²) <= lossv hc).
    { split; [now apply (ok_sd s h0 hc)|]. split; auto. rewrite Nat.sub_diag. unfold ExactRun.lossv. rewrite (sd_get_loss _ _ s S1). simpl. lra. }
    cbn [gd_loop] in E. destruct (flt (vnorm (FinV gr)) _) eqn:E1; [injection E as <- <-; exact D|].
    destruct (flt (get_loss hc s) _) eqn:E2; [injection E as <- <-; exact D|]. clear D.
    unfold mbind at 1 in E. destruct (line_search_wolfe s _ _ h1) as [h2 [[alpha|le]|]] eqn:El; try discriminate.
    unfold mbind at 1 in E. destruct (set_data s _ h2) as [h3 [[]|]] eqn:Es; try discriminate.
    rewrite (sd_get_data _ _ s S1) in Es.
    destruct (gd_step_rate _ _ _ _ _ _ Ho Hg El Es) as [O3 L3].
    unfold mbind in E. destruct (get_gradient s h3) as [h4 [g'|]] eqn:Eg; try discriminate.
    destruct (ok_grad s h0 _ _ _ Eg) as (gr' & -> & _).
    destruct (IH _ _ _ _ _ _ O3 Eg E) as (O' & Hk & L). split; auto. split; [lia|].
    rewrite vnorm_R, He in E1. apply lt_false in E1.
    assert (G : e² <= dotL gr gr).
    { rewrite <- (Rsqr_sqrt (dotL gr gr)) by apply dot_self_nonneg. apply Rsqr_incr_1; lra || apply sqrt_pos. }
    replace (k - it)%nat with (S (k - S it)) by lia. rewrite S_INR. unfold Rsqr in *. lra.
Qed.
End S.

Lemma C65_budget_lemma s P (h h' : heap xR) n e l : valid h s -> finite_data h s -> all_con_finite h s ->
  gd_min_grad P = Fin e -> 0 < e -> get_loss h s = Fin l -> gd_run s P h = (h', Val (SOk n)) ->
  INR n * e ^ 2 <= 163840000 * l /\
  (163840000 * l < INR (N.to_nat (gd_max P)) * e ^ 2 ->
   flt (get_loss h' s) (gd_min_loss P) = true \/
   exists g, snd (get_gradient s h') = Val g /\ flt (vnorm g) (gd_min_grad P) = true).
Proof.
  intros V Fd CF He Pe Hl E. assert (Ho := okh_init _ _ V Fd).
  assert (B : INR n * e ^ 2 <= 163840000 * l).
  { unfold gd_run, mbind in E. destruct (get_gradient s h) as [h1 [g|]] eqn:Eg; [|discriminate].
    destruct (ok_grad s h _ _ _ Eg) as (gr & -> & _). rewrite (sd_get_loss _ _ s (gradient_sd _ _ _ _ Eg)) in E.
    destruct (gd_loop_rate s h V CF P e He Pe _ _ _ _ _ _ _ Ho Eg E) as (O' & _ & L).
    pose proof (loss_nn s h CF h' O') as N. unfold lossv in L at 2. rewrite Hl, Nat.sub_0_r in L. simpl in L.
    unfold Rsqr in L. simpl. rewrite Rmult_1_r. lra. }
  split; auto. intros Hb. destruct (C22_gd_lemma s P h h' n V E) as [H|[H|H]]; auto. exfalso. subst n. lra.
Qed.

(** sequences of steps that never end *)
Section Inf.
Variables (s : sketch) (hs : nat -> heap xR) (gs : nat -> list R).
Hypothesis V : valid (hs 0%nat) s.
Hypothesis Fd : finite_data (hs 0%nat) s.
Hypothesis CF : all_con_finite (hs 0%nat) s.
Hypothesis Hstep : forall n, gd_steps s (hs n) 1 (hs (S n)).
Hypothesis Hg : forall n, snd (get_gradient s (hs n)) = Val (map Fin (gs n)).
Definition loss_at (n : nat) : R := lossv s (hs n).
Lemma inf_ok n : okh s (hs 0%nat) (hs n) /\ loss_at (S n) <= loss_at n - / 163840000 * dotL (gs n) (gs n).
Proof.
  assert (K : forall n, okh s (hs 0%nat) (hs n) -> okh s (hs 0%nat) (hs (S n)) /\ loss_at (S n) <= loss_at n - / 163840000 * dotL (gs n) (gs n)).
  { clear n. intros n Ho. specialize (Hstep n). specialize (Hg n). inversion Hstep as [|m h h1 g alpha h2 h3 H0 Eg El Es E1 E2]; subst.
    inversion H0; subst. rewrite Eg in Hg. simpl in Hg. injection Hg as ->.
    destruct (gd_step_rate s _ V CF _ _ _ _ _ _ Ho Eg El Es) as [O L]. split; auto. }
  induction n as [|n [IH _]].
  - assert (O := okh_init _ _ V Fd). split; auto. now apply K.
  - destruct (K n IH) as [O _]. split; auto. now apply K.
Qed.
Lemma inf_sum n : / 163840000 * sum_f_R0 (fun i => dotL (gs i) (gs i)) n <= loss_at 0 - loss_at (S n).
Proof.
  induction n as [|n IH]; simpl.
  - destruct (inf_ok 0) as [_ H]. lra.
  - destruct (inf_ok (S n)) as [_ H]. lra.
Qed.
Lemma inf_bound n : sum_f_R0 (fun i => dotL (gs i) (gs i)) n <= 163840000 * loss_at 0.
Proof.
  pose proof (inf_sum n) as H. destruct (inf_ok (S n)) as [O _]. pose proof (loss_nn s _ CF _ O) as N. fold (loss_at (S n)) in N. lra.
Qed.
Lemma inf_loss_cv : exists l, 0 <= l /\ Un_cv loss_at l.
Proof.
  assert (D : Un_decreasing loss_at).
  { intros n. destruct (inf_ok n) as [_ H]. pose proof (dot_self_nonneg (gs n)). lra. }
  assert (N : forall n, 0 <= loss_at n) by (intros n; apply (loss_nn s _ CF); apply inf_ok).
  assert (L : has_lb loss_at).
  { exists 0. intros x (n & ->). unfold opp_seq. pose proof (N n). lra. }
  destruct (decreasing_cv _ D L) as (l & Hl). exists l. split; auto.
  apply Rnot_lt_le. intros Hn. destruct (Hl (- l) ltac:(lra)) as (k & Hk). specialize (Hk k (le_n k)).
  pose proof (N k). unfold R_dist in Hk. rewrite Rabs_pos_eq in Hk by lra. lra.
Qed.
Lemma inf_grad_cv : Un_cv (fun n => dotL (gs n) (gs n)) 0.
Proof.
  destruct inf_loss_cv as (l & _ & Hl). intros eps He.
  destruct (Hl (eps / 163840000 / 2)) as (N & HN); [lra|]. exists N. intros n Hn.
  unfold R_dist. rewrite Rminus_0_r, Rabs_pos_eq by apply dot_self_nonneg.
  pose proof (HN n Hn) as A1. pose proof (HN (S n) ltac:(lia)) as A2. unfold R_dist in *.
  apply Rabs_def2 in A1. apply Rabs_def2 in A2. destruct (inf_ok n) as [_ H]. lra.
Qed.
(** among the first n + 1 gradients one is at most l0 * C / (n + 1) *)
Lemma inf_min n : exists i, (i <= n)%nat /\ dotL (gs i) (gs i) * INR (S n) <= 163840000 * loss_at 0.
Proof.
  pose proof (inf_bound n) as B.
  assert (K : forall m, exists i, (i <= m)%nat /\ dotL (gs i) (gs i) * INR (S m) <= sum_f_R0 (fun i => dotL (gs i) (gs i)) m).
  { induction m as [|m (i & Hi & IH)].
    - exists 0%nat. split; auto. simpl. lra.
    - destruct (Rle_lt_dec (dotL (gs i) (gs i)) (dotL (gs (S m)) (gs (S m)))) as [H|H].
      + exists i. split; auto. rewrite S_INR. cbn [sum_f_R0]. lra.
      + exists (S m). split; auto. rewrite S_INR. cbn [sum_f_R0].
        assert (0 <= INR (S m)) by apply pos_INR. nra. }
  destruct (K n) as (i & Hi & H). exists i. split; auto. lra.
Qed.
End Inf.
Lemma C65_step_lemma s (h h' : heap xR) gr l : valid h s -> finite_data h s -> all_con_finite h s ->
  gd_steps s h 1 h' -> snd (get_gradient s h) = Val (map Fin gr) -> get_loss h s = Fin l ->
  exists l', get_loss h' s = Fin l' /\ l' <= l - / 163840000 * dotL gr gr.
Proof.
  intros V Fd CF St Hg Hl. assert (Ho := okh_init _ _ V Fd).
  inversion St as [|m h0 h1 g alpha h2 h3 H0 Eg El Es E1 E2]; subst. inversion H0; subst.
  rewrite Eg in Hg. simpl in Hg. injection Hg as ->.
  destruct (gd_step_rate s _ V CF _ _ _ _ _ _ Ho Eg El Es) as [O L].
  exists (lossv s h'). split; [now apply (ok_loss s _ CF)|]. unfold lossv in L at 2. rewrite Hl in L. exact L.
Qed.
Lemma C65_converge_lemma s (hs : nat -> heap xR) gs l0 : valid (hs 0%nat) s -> finite_data (hs 0%nat) s -> all_con_finite (hs 0%nat) s ->
  (forall n, gd_steps s (hs n) 1 (hs (S n))) -> (forall n, snd (get_gradient s (hs n)) = Val (map Fin (gs n))) ->
  get_loss (hs 0%nat) s = Fin l0 ->
  (exists ls l, (forall n, get_loss (hs n) s = Fin (ls n)) /\ 0 <= l <= l0 /\ Un_cv ls l) /\
  Un_cv (fun n => dotL (gs n) (gs n)) 0 /\
  (forall n, exists i, (i <= n)%nat /\ dotL (gs i) (gs i) * INR (S n) <= 163840000 * l0).
Proof.
  intros V Fd CF St Hg Hl.
  assert (L0 : loss_at s hs 0 = l0) by (unfold loss_at, lossv; rewrite Hl; reflexivity).
  split; [|split].
  - destruct (inf_loss_cv s hs gs V Fd CF St Hg) as (l & Pl & Hc). exists (loss_at s hs), l. split; [|split; auto].
    + intros n. apply (ok_loss s _ CF). apply (inf_ok s hs gs V Fd CF St Hg n).
    + split; auto. rewrite <- L0. assert (D : Un_decreasing (loss_at s hs)).
      { intros n. destruct (inf_ok s hs gs V Fd CF St Hg n) as [_ H]. pose proof (dot_self_nonneg (gs n)). lra. }
      exact (decreasing_ineq _ _ D Hc 0%nat).
  - exact (inf_grad_cv s hs gs V Fd CF St Hg).
  - intros n. rewrite <- L0. exact (inf_min s hs gs V Fd CF St Hg n).
Qed.
