(** * Speed limits of Gauss-Newton and Levenberg-Marquardt on linear sketches (C79, C80) *)
From Coq Require Import List ZArith NArith Arith Bool Lia Sorted Reals Lra.
From Verif Require Import Arith Vec Prim Cons Sketch Solve Api Spec SolverSpec ArithR ExactSpec MotionSpec LinearSpec SlowSpec
  HeapLemmas SolveLemmas WfLemmas DataLemmas SpecLemmas ExactLemmas DerivLemmas GradLemmas PureLemmas LossLemmas
  SearchLemmas StepLemmas RMat NlsMat ExactRun SolverForms RestLemmas ConserveLemmas MotionLemmas NlsDescent
  LinearLemmas LinearForms GraphLemmas RateLemmas SlowLemmas.
Import ListNotations.
Local Open Scope R_scope.

Lemma sum_squares_eq (h : heap xR) s : sum_squares h s = squares s h.
Proof. unfold sum_squares, squares, lossK, get_loss_per_constraint. now rewrite map_map. Qed.
Lemma forget_solve pinv sol s h max st b : nls_params sol max st b ->
  solve pinv sol s h = mbind (nls_run pinv sol s) (fun r => mret (sforget r)) h.
Proof. destruct sol; simpl; tauto || reflexivity. Qed.

Section Run.
Variables (s : sketch) (h0 : heap xR).
Hypothesis V : valid h0 s.
Hypothesis FD : finite_data h0 s.
Hypothesis CF : all_con_finite h0 s.
Hypothesis LS : linear_sketch h0 s.
Variable pinv : mat xR -> xR -> pinv_res (mat xR).
Hypothesis PI : exact_pinv pinv.
Variables (sol : solver xR) (max : N) (st b : R).
Hypothesis HP : nls_params sol max st b.
Hypothesis Hb : 0 <= b.

Definition min_of := match sol with GaussNewton P => gn_min_loss P | LevenbergMarquardt P => lm_min_loss P | _ => f0 end.
Lemma as_loop : exists normal eps,
  (forall n Jr, rows n Jr -> exists N, normal n (FinM Jr) = FinM N /\ symmetric n N /\ forall q, truncated_inverse n N q -> truncated_inverse n (normL b n Jr) q) /\
  forall h, nls_run pinv sol s h = nls_loop pinv s normal min_of eps (Fin st) (N.to_nat max) 0 finf h.
Proof.
  unfold min_of. destruct sol as [P|P|P|P]; simpl in HP; try tauto.
  - destruct HP as (<- & E & ->). exists gn_normal, (gn_eps P). split.
    + intros n Jr RJ. exists (mmL n (trL n Jr) Jr). split; [unfold gn_normal; now rewrite mtrans_R, mmul_R|].
      split; [now apply jtj_sym|]. intros q. 
      intros ((Lq & Rq & Sy) & Q1 & Q2).
      assert (Em : forall v, length v = n -> mulR (normL 0 n Jr) v = mulR (mmL n (trL n Jr) Jr) v).
      { intros v L. change mulR with mulL. rewrite norm_mul, jtj_mul by auto.
        rewrite scl_zeros by now left. rewrite L. set (w := mulL _ _). assert (Lw : length w = n) by (unfold w; rewrite mulL_length; apply trL_length).
        unfold addL. now apply map2_zeros_r; [|intros; ring]. }
      split; [now repeat split|]. split.
      * intros v L. rewrite Em by (change mulR with mulL; rewrite mulL_length; auto). auto.
      * intros v L. rewrite !Em by (auto; change mulR with mulL; rewrite mulL_length; auto). auto.
    + intros h. simpl. unfold gn_run. now rewrite E.
  - destruct HP as (<- & E & Eb). exists (lm_normal (Fin b)), (lm_eps P). split.
    + intros n Jr RJ. exists (normL b n Jr). split; [|split; [now apply norm_sym|auto]].
      unfold lm_normal, normL. now rewrite mtrans_R, mmul_R, mident_R, mscale_R, madd_R.
    + intros h. simpl. unfold lm_run. now rewrite E, Eb.
Qed.
Lemma run_passes h' r : nls_run pinv sol s h0 = (h', r) -> exists j, (j <= N.to_nat max)%nat /\ passes s h0 b st j h0 h' /\ okh s h0 h' /\
  forall i, r = Val (SOk i) -> i = j /\
    (j = N.to_nat max \/ (j = O /\ fgt finf min_of = false) \/ exists j' hp, j = S j' /\ passes s h0 b st j' h0 hp /\ okh s h0 hp /\ fgt (Fin (total s hp)) min_of = false).
Proof.
  destruct as_loop as (normal & eps & Hn & E). rewrite E. intros R. assert (Ho := okh_init s h0 V FD).
  destruct (loop_passes s h0 V CF LS pinv PI normal b Hb Hn _ _ _ _ _ _ _ _ _ Ho R) as (j & Lj & Pj & K).
  exists j. split; auto. split; auto. split; [eapply passes_okh; eauto|]. exact K.
Qed.
Lemma run_ok : never_fails pinv -> exists h' i, nls_run pinv sol s h0 = (h', Val (SOk i)).
Proof.
  intros NF. destruct as_loop as (normal & eps & Hn & E). rewrite E.
  apply (loop_ok s h0 V CF LS pinv PI normal b Hb Hn); [exact NF|]. exact (okh_init s h0 V FD).
Qed.
Lemma pow_decr x j k : 0 <= x <= 1 -> (j <= k)%nat -> x ^ k <= x ^ j.
Proof.
  intros Hx L. replace k with (j + (k - j))%nat by lia. rewrite pow_add. rewrite <- (Rmult_1_r (x ^ j)) at 2.
  apply Rmult_le_compat_l; [apply pow_le; lra|]. generalize (k - j)%nat. intros i. induction i as [|i IH]; simpl; [lra|].
  assert (0 <= x ^ i) by (apply pow_le; lra). nra.
Qed.
Lemma C79_count_lemma h' i : 0 <= st <= 2 -> nls_run pinv sol s h0 = (h', Val (SOk i)) -> (1 - st / 2) ^ (4 * i) * sum_squares h0 s <= sum_squares h' s.
Proof.
  intros Hs R. destruct (run_passes _ _ R) as (j & Lj & Pj & Ho & K). destruct (K i eq_refl) as [-> _].
  rewrite !sum_squares_eq, pow_mult. eapply passes_rate; eauto.
Qed.
Lemma C79_limit_lemma : 0 <= st <= 2 -> (1 - st / 2) ^ (4 * N.to_nat max) * sum_squares h0 s <= sum_squares (fst (solve pinv sol s h0)) s.
Proof.
  intros Hs. rewrite (forget_solve pinv sol s h0 _ _ _ HP). unfold mbind. destruct (nls_run pinv sol s h0) as [h' r] eqn:R.
  destruct (run_passes _ _ R) as (j & Lj & Pj & Ho & _).
  assert (G : (1 - st / 2) ^ (4 * N.to_nat max) * sum_squares h0 s <= sum_squares h' s).
  { rewrite !sum_squares_eq. eapply Rle_trans; [|eapply passes_rate; eauto]. apply Rmult_le_compat_r; [apply squares_nonneg|].
    rewrite <- pow_mult. apply pow_decr; [lra|lia]. }
  destruct r; exact G.
Qed.
Notation m := (INR (length (s_cons s))).
Notation slowdown := (4 * st * sqrt m / (b * (1 - st / 2) ^ 2)).
Lemma C80_floor_lemma h' i : 0 < b -> 0 <= st < 2 -> 0 < sum_squares h0 s -> nls_run pinv sol s h0 = (h', Val (SOk i)) ->
  0 < sum_squares h' s /\ / sqrt (sum_squares h' s) <= / sqrt (sum_squares h0 s) + INR i * slowdown.
Proof.
  intros Pb Hs Pq R. destruct (run_passes _ _ R) as (j & Lj & Pj & Ho & K). destruct (K i eq_refl) as [-> _]. rewrite !sum_squares_eq in *.
  destruct (passes_floor s h0 CF b st j h0 h' (okh_init s h0 V FD) Pb Hs Pq Pj) as [A B]. split; [|exact B].
  apply sqrt_lt_0_alt. now rewrite sqrt_0.
Qed.
End Run.

(** ** default parameters *)
Lemma bern x n : 0 <= x <= 1 -> 1 - INR n * x <= (1 - x) ^ n.
Proof.
  intros Hx. induction n as [|n IH]; [simpl; lra|]. rewrite S_INR. simpl. pose proof (pos_INR n).
  assert ((1 - x) * (1 - INR n * x) <= (1 - x) * (1 - x) ^ n) by (apply Rmult_le_compat_l; lra). assert (0 <= INR n * x * x) by (repeat apply Rmult_le_pos; lra). lra.
Qed.
Lemma pow_stage x y j k : 0 <= y -> y <= x ^ j -> y ^ k <= x ^ (j * k).
Proof. intros Py H. rewrite pow_mult. apply pow_incr. auto. Qed.
Lemma gn_pow : / 30000 <= (1 - / 1000 / 2) ^ (2 * N.to_nat 10000).
Proof.
  replace (2 * N.to_nat 10000)%nat with (50 * 8 * 5 * 10)%nat by (vm_compute; reflexivity).
  assert (A : 39 / 40 <= (1 - / 1000 / 2) ^ 50) by (pose proof (bern (/ 1000 / 2) 50 ltac:(lra)) as B; replace (INR 50) with 50 in B by (simpl; lra); lra).
  apply (pow_stage _ _ 50 8) in A; [|lra].
  assert (A2 : 8166 / 10000 <= (1 - / 1000 / 2) ^ (50 * 8)) by (eapply Rle_trans; [|exact A]; simpl; lra). clear A.
  apply (pow_stage _ _ (50 * 8) 5) in A2; [|lra].
  assert (A3 : 363 / 1000 <= (1 - / 1000 / 2) ^ (50 * 8 * 5)) by (eapply Rle_trans; [|exact A2]; simpl; lra). clear A2.
  apply (pow_stage _ _ (50 * 8 * 5) 10) in A3; [|lra]. eapply Rle_trans; [|exact A3]. simpl. lra.
Qed.

Section Default.
Variables (s : sketch) (h0 : heap xR).
Hypothesis V : valid h0 s.
Hypothesis FD : finite_data h0 s.
Hypothesis CF : all_con_finite h0 s.
Hypothesis LS : linear_sketch h0 s.
Variable pinv : mat xR -> xR -> pinv_res (mat xR).
Hypothesis PI : exact_pinv pinv.
Notation m := (INR (length (s_cons s))).
Variable l0 : R.
Hypothesis El : get_loss h0 s = Fin l0.
Let Ho := okh_init s h0 V FD.
Lemma total0 : total s h0 = l0.
Proof. rewrite (proj1 (loss_total s h0 CF h0 Ho)) in El. now injection El. Qed.
Lemma gn_default_params : nls_params (GaussNewton gn_default) 10000 (/ 1000) 0.
Proof. simpl. repeat split. unfold gn_default. cbn [gn_step]. cbn [flit ArithR]. f_equal. simpl. lra. Qed.
Lemma lm_default_params : nls_params (LevenbergMarquardt lm_default) 1000 (/ 10) (/ 100000).
Proof. simpl. repeat split; unfold lm_default; cbn [lm_step lm_beta]; cbn [flit ArithR]; f_equal; simpl; lra. Qed.
Lemma gn_after j h : (j <= N.to_nat 10000)%nat -> passes s h0 0 (/ 1000) j h0 h -> okh s h0 h -> l0 <= 30000 * sqrt m * total s h.
Proof.
  intros Lj P Hh. pose proof (passes_rate s h0 0 (/ 1000) j h0 h ltac:(lra) P) as R.
  assert (R2 : (/ 30000) ^ 2 * squares s h0 <= squares s h).
  { eapply Rle_trans; [|exact R]. apply Rmult_le_compat_r; [apply squares_nonneg|].
    assert (G : (/ 30000) ^ 2 <= ((1 - / 1000 / 2) ^ (2 * N.to_nat 10000)) ^ 2) by (apply pow_incr; split; [lra|apply gn_pow]).
    eapply Rle_trans; [exact G|]. rewrite <- !pow_mult. apply pow_decr; [lra|lia]. }
  assert (Q : / 30000 * sqrt (squares s h0) <= sqrt (squares s h)).
  { rewrite <- (sqrt_pow2 (/ 30000)) by lra. rewrite <- sqrt_mult; [|apply pow_le; lra|apply squares_nonneg]. now apply sqrt_le_1_alt. }
  assert (T0 := total_le s h0 CF h0 Ho). rewrite total0 in T0. assert (T1 := squares_le s h0 CF h Hh).
  assert (Pm := sqrt_pos m).
  assert (sqrt m * (/ 30000 * sqrt (squares s h0)) <= sqrt m * total s h) by (apply Rmult_le_compat_l; lra). lra.
Qed.
Lemma C79_default_lemma : exists l, get_loss (fst (solve pinv (GaussNewton gn_default) s h0)) s = Fin l /\ l0 <= 30000 * sqrt m * l.
Proof.
  rewrite (forget_solve pinv _ s h0 _ _ _ gn_default_params). unfold mbind. destruct (nls_run pinv (GaussNewton gn_default) s h0) as [h' r] eqn:R.
  destruct (run_passes s h0 V FD CF LS pinv PI _ _ _ _ gn_default_params (Rle_refl 0) _ _ R) as (j & Lj & Pj & Hh & _).
  exists (total s h'). assert (E := proj1 (loss_total s h0 CF h' Hh)).
  split; [destruct r; exact E|]. now apply (gn_after j).
Qed.
Lemma C79_unsolved_lemma h' i : 3 / 100 * sqrt m < l0 -> gn_run pinv s gn_default h0 = (h', Val (SOk i)) ->
  i = N.to_nat 10000 /\ exists l, get_loss h' s = Fin l /\ / 1000000 < l.
Proof.
  intros Hl R.
  destruct (run_passes s h0 V FD CF LS pinv PI (GaussNewton gn_default) _ _ _ gn_default_params (Rle_refl 0) _ _ R) as (j & Lj & Pj & Hh & K).
  assert (G : forall j h, (j <= N.to_nat 10000)%nat -> passes s h0 0 (/ 1000) j h0 h -> okh s h0 h -> / 1000000 < total s h).
  { intros j' h L P Hx. assert (A := gn_after j' h L P Hx). assert (Pm := sqrt_pos m).
    assert (B : sqrt m * (3 / 100) < sqrt m * (30000 * total s h)) by lra. destruct Pm as [Pm|Z]; [|rewrite <- Z in B; lra].
    apply Rmult_lt_reg_l in B; lra. }
  destruct (K i eq_refl) as [-> [->|[[_ C]|(j' & hp & -> & Pp & Hp & C)]]].
  - split; auto. exists (total s h'). split; [apply (loss_total s h0 CF h' Hh)|eauto].
  - exfalso. revert C. unfold min_of, gn_default. cbn. discriminate.
  - exfalso. assert (B := G j' hp ltac:(lia) Pp Hp). revert C. unfold min_of, gn_default. cbn [gn_min_loss].
    unfold fgt. cbn [flit ArithR]. replace (1 / 10 ^ 6) with (/ 1000000) by (simpl; lra). intros C. apply lt_false in C. lra.
Qed.
Lemma lm_after j h : 0 < l0 -> (j <= N.to_nat 1000)%nat -> passes s h0 (/ 100000) (/ 10) j h0 h -> okh s h0 h ->
  0 < total s h /\ / total s h <= sqrt m * (/ l0 + 44400000).
Proof.
  intros Pl Lj P Hh. assert (T0 := total_le s h0 CF h0 Ho). rewrite total0 in T0.
  assert (Pm := sqrt_pos m). assert (Pq := sqrt_pos (squares s h0)).
  assert (Pm' : 0 < sqrt m) by (destruct Pm as [|Z]; auto; rewrite <- Z in T0; lra).
  assert (Pq' : 0 < sqrt (squares s h0)) by (destruct Pq as [|Z]; auto; rewrite <- Z in T0; lra).
  assert (Pq2 : 0 < squares s h0) by (apply sqrt_lt_0_alt; now rewrite sqrt_0).
  destruct (passes_floor s h0 CF (/ 100000) (/ 10) j h0 h Ho ltac:(lra) ltac:(lra) Pq2 P) as [A B].
  assert (T1 := squares_le s h0 CF h Hh). assert (Pt : 0 < total s h) by lra. split; auto.
  assert (I1 : / total s h <= / sqrt (squares s h)) by (apply Rinv_le_contravar; auto).
  assert (I2 : / sqrt (squares s h0) <= sqrt m * / l0).
  { apply (Rmult_le_reg_r (sqrt (squares s h0))); auto. rewrite Rinv_l by lra. apply (Rmult_le_reg_r l0); auto.
    replace (sqrt m * / l0 * sqrt (squares s h0) * l0) with (sqrt m * sqrt (squares s h0)) by (field; lra). lra. }
  assert (Lj' : INR j <= 1000).
  { replace 1000 with (INR (N.to_nat 1000)) by (rewrite INR_IZR_INZ, N_nat_Z; reflexivity). now apply le_INR. }
  assert (I3 : 4 * / 10 * sqrt m / (/ 100000 * (1 - / 10 / 2) ^ 2) <= 44400 * sqrt m).
  { replace (4 * / 10 * sqrt m / (/ 100000 * (1 - / 10 / 2) ^ 2)) with (16000000 / 361 * sqrt m) by field. apply Rmult_le_compat_r; lra. }
  assert (I4 : INR j * (4 * / 10 * sqrt m / (/ 100000 * (1 - / 10 / 2) ^ 2)) <= 1000 * (44400 * sqrt m)).
  { apply Rmult_le_compat; auto; [apply pos_INR|]. replace (4 * / 10 * sqrt m / (/ 100000 * (1 - / 10 / 2) ^ 2)) with (16000000 / 361 * sqrt m) by field. lra. }
  lra.
Qed.
Lemma C80_default_lemma : 0 < l0 -> exists l, get_loss (fst (solve pinv (LevenbergMarquardt lm_default) s h0)) s = Fin l /\ 0 < l /\ / l <= sqrt m * (/ l0 + 44400000).
Proof.
  intros Pl. rewrite (forget_solve pinv _ s h0 _ _ _ lm_default_params). unfold mbind. destruct (nls_run pinv (LevenbergMarquardt lm_default) s h0) as [h' r] eqn:R.
  destruct (run_passes s h0 V FD CF LS pinv PI _ _ _ _ lm_default_params ltac:(lra) _ _ R) as (j & Lj & Pj & Hh & _).
  exists (total s h'). assert (E := proj1 (loss_total s h0 CF h' Hh)).
  split; [destruct r; exact E|]. now apply (lm_after j).
Qed.
Lemma C80_unsolved_lemma h' i : / 10000000 <= l0 -> m <= 10000 -> lm_run pinv s lm_default h0 = (h', Val (SOk i)) ->
  i = N.to_nat 1000 /\ exists l, get_loss h' s = Fin l /\ / 10000000000 < l.
Proof.
  intros Hl Hm R.
  destruct (run_passes s h0 V FD CF LS pinv PI (LevenbergMarquardt lm_default) _ _ _ lm_default_params ltac:(lra) _ _ R) as (j & Lj & Pj & Hh & K).
  assert (G : forall j h, (j <= N.to_nat 1000)%nat -> passes s h0 (/ 100000) (/ 10) j h0 h -> okh s h0 h -> / 10000000000 < total s h).
  { intros j' h L P Hx. destruct (lm_after j' h ltac:(lra) L P Hx) as [A B].
    assert (Sm : sqrt m <= 100). { rewrite <- (sqrt_square 100) by lra. apply sqrt_le_1_alt. lra. }
    assert (Il : / l0 <= 10000000). { rewrite <- (Rinv_inv 10000000). apply Rinv_le_contravar; lra. }
    assert (Pl : 0 < / l0) by (apply Rinv_0_lt_compat; lra).
    assert (C : / total s h <= 100 * 54400000). { eapply Rle_trans; [exact B|]. apply Rmult_le_compat; try lra. apply sqrt_pos. }
    rewrite <- (Rinv_inv (total s h)). apply Rinv_lt_contravar; [|lra]. apply Rmult_lt_0_compat; [now apply Rinv_0_lt_compat|lra]. }
  destruct (K i eq_refl) as [-> [->|[[_ C]|(j' & hp & -> & Pp & Hp & C)]]].
  - split; auto. exists (total s h'). split; [apply (loss_total s h0 CF h' Hh)|eauto].
  - exfalso. revert C. unfold min_of, lm_default. cbn. discriminate.
  - exfalso. assert (B := G j' hp ltac:(lia) Pp Hp). revert C. unfold min_of, lm_default. cbn [lm_min_loss].
    unfold fgt. cbn [flit ArithR]. replace (1 / 10 ^ 10) with (/ 10000000000) by (simpl; lra). intros C. apply lt_false in C. lra.
Qed.
End Default.
