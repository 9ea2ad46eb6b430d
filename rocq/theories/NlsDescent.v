(** * Gauss-Newton and Levenberg-Marquardt steps are descent directions (proofs for C63) *)
From Coq Require Import List ZArith NArith Arith Bool Lia Sorted Reals Lra.
From Coquelicot Require Import Coquelicot.
From Verif Require Import Arith Vec Prim Cons Sketch Solve Api Spec SolverSpec ArithR ExactSpec MotionSpec
  HeapLemmas SolveLemmas WfLemmas DataLemmas SpecLemmas ExactLemmas DerivLemmas GradLemmas PureLemmas LossLemmas
  SearchLemmas StepLemmas RMat NlsMat ExactRun RestLemmas ConserveLemmas MotionLemmas.
Import ListNotations.
Local Open Scope R_scope.

Lemma dot_map2_sum {T} (f g : T -> R) l : sumR (map (fun k => f k * g k) l) = dotL (map f l) (map g l).
Proof. induction l as [|k l IH]; auto. unfold dotL. simpl. f_equal. exact IH. Qed.

Lemma half_sq (f : R -> R) l : is_derive f 0 l -> is_derive (fun t => f t * f t / 2) 0 (f 0 * l).
Proof.
  intros H. eapply D_eq.
  - apply (is_derive_ext (fun t => /2 * (f t * f t))); [intros; req; field|]. apply is_derive_scal. apply (is_derive_mult f f 0 l l); auto. exact Rmult_comm.
  - unfold plus, mult; simpl. field.
Qed.
Lemma map2_axpy t d : forall x, map2 (fun x0 y => x0 + t * y) x d = map2 Rplus x (map (Rmult t) d).
Proof. induction d as [|y d IH]; intros [|z x]; simpl; auto. now rewrite IH. Qed.
Lemma sub_neg t p : forall x, subL x (sclL t p) = addL x (sclL t (negL p)).
Proof.
  unfold subL, addL, sclL, negL. induction p as [|a p IH]; intros [|z x]; simpl; auto. rewrite IH. f_equal. ring.
Qed.
Section D.
Variables (s : sketch) (h : heap xR).
Hypothesis V : valid h s.
Hypothesis Fd : finite_data h s.
Hypothesis CF : all_con_finite h s.
Hypothesis ND : forall k, In k (s_cons s) -> nondegenerate (cfg_of h) h (getK h k).
Let n := get_n_dofs h s.
Let w := map vx (get_loss_per_constraint h s).
Let x := map vx (get_data h s).

Lemma okh_refl : okh s h h.
Proof. split; [apply frame_refl|]. now apply (finite_iff _ _ (valid_keys _ _ V)). Qed.
Lemma jac_here : exists h1 Jr, get_jacobian s h = (h1, Val (FinM Jr)) /\ sdeq h h1 /\ rows n Jr /\ length Jr = length w /\
  forall d, length d = n -> mulL Jr d = map (fun k => pairing h (D_of (cells s) d) (fin_rows h (getK h k))) (s_cons s).
Proof.
  destruct (jacobian_ok s h (valid_nd _ _ V) (valid_cells _ _ V) (good_nondeg _ _ CF ND) (s_cons s) (incl_refl _) h (LossLemmas.sd_refl h)) as (h1 & Jr & E & S & FJ).
  exists h1, Jr. split; [exact E|]. split; auto. unfold w. rewrite map_length. unfold get_loss_per_constraint. rewrite map_length.
  fold n in FJ. clear E. revert FJ. generalize (s_cons s). intros ks0 FJ. induction FJ as [|k row ks J' [Lr Pr] FJ IH]; [repeat split; constructor|].
  destruct IH as (I1 & I2 & I3). split; [constructor; auto|]. split; [simpl; congruence|].
  intros d Ld. simpl. rewrite I3, Pr by auto. reflexivity.
Qed.
Lemma squares_deriv d : length d = n ->
  is_derive (fun t => half_squares (moved h s d t) s) 0
    (dotL w (map (fun k => pairing h (D_of (cells s) d) (fin_rows h (getK h k))) (s_cons s))).
Proof.
  intros Ld. assert (N1 := valid_nd _ _ V). assert (N2 := valid_cells _ _ V).
  apply (is_derive_ext (fun t => sumR (map (fun k => sq (vx (loss_value (moved h s d t) (getK h k))) / 2) (s_cons s)))).
  - intros t. req. unfold half_squares, get_loss_per_constraint. rewrite map_map.
    destruct (moved_ok h s d t N1 N2 Ld) as (S & _).
    transitivity (sumR (map (fun k => sq (vx (loss_value (moved h s d t) (getK (moved h s d t) k))) / 2) (s_cons s))).
    + f_equal. apply map_ext. intros k. now rewrite (struct_getK _ _ _ S).
    + clear. induction (s_cons s) as [|k ks IH]; simpl; [field|]. simpl in IH. unfold sumR in *. rewrite IH. field.
  - unfold w, get_loss_per_constraint. rewrite map_map, <- dot_map2_sum.
    apply (derive_sum (s_cons s) (fun k t => sq (vx (loss_value (moved h s d t) (getK h k))) / 2)). intros k Hk.
    assert (Dk := con_loss_deriv h s d k N1 N2 Ld (CF k Hk) (ND k Hk)).
    assert (E0 : vx (loss_value (moved h s d 0) (getK h k)) = vx (loss_value h (getK h k))).
    { rewrite (loss_R h) by auto. rewrite loss_R by (apply moved_con_finite; auto). rewrite moved_cfg by auto. simpl.
      destruct (moved_ok h s d 0 N1 N2 Ld) as (S & _). rewrite (struct_lossR _ _ _ _ S).
      unfold shift. simpl. f_equal. unfold cfg_of. f_equal; apply FunctionalExtensionality.functional_extensionality; intros; ring. }
    unfold sq. set (f := fun t => vx (loss_value (moved h s d t) (getK h k))) in *.
    change (is_derive (fun t => f t * f t / 2) 0 (vx (loss_value h (getK h k)) * pairing h (D_of (cells s) d) (fin_rows h (getK h k)))).
    rewrite <- E0. apply (half_sq f). exact Dk.
Qed.
Variable pinv : mat xR -> xR -> pinv_res (mat xR).
Hypothesis PI : exact_pinv pinv.
Variables (normal : nat -> mat xR -> mat xR) (b : R).
Hypothesis Hb : 0 <= b.
Hypothesis Hn : forall Jr, rows n Jr -> exists N, normal n (FinM Jr) = FinM N /\ symmetric n N /\
     forall q, truncated_inverse n N q -> truncated_inverse n (normL b n Jr) q.
Lemma moved_back d t h1 h2 : length d = n -> sdeq h h1 -> set_data s (FinV (addL x (sclL t d))) h1 = (h2, Val tt) ->
  get_data h2 s = FinV (addL x (sclL t d)) /\ half_squares h2 s = half_squares (moved h s d t) s.
Proof.
  intros Ld S1 E. assert (N1 := valid_nd _ _ V). assert (N2 := valid_cells _ _ V).
  assert (V1 : valid h1 s) by (eapply valid_struct; [exact V | apply S1]).
  assert (G := C09_set_get _ _ _ _ V1 E). split; auto.
  assert (S2 : sdeq h2 (moved h s d t)).
  { apply (at_unique h s (FinV (addL x (sclL t d)))); auto; apply at_frame; auto; split; auto.
    - eapply frame_trans; [apply (sd_frame_of s), S1 | eapply set_frame, E].
    - unfold moved. pose proof (set_data_frame' s (map Fin (map2 (fun x0 y => x0 + t * y) (map vx (get_data h s)) d)) h) as Fr. exact Fr.
    - unfold moved. destruct (moved_ok h s d t N1 N2 Ld) as (_ & _ & _ & h' & E'). rewrite E'. cbn [fst].
      rewrite (C09_set_get _ _ _ _ V E'). unfold FinV, addL, sclL. f_equal. apply map2_axpy. }
  unfold half_squares. f_equal. f_equal. f_equal. unfold get_loss_per_constraint. apply map_ext. intros k.
  rewrite (struct_getK _ _ _ (proj1 S2)). symmetry. now apply sd_loss.
Qed.
Lemma descent ml eps : fgt finf ml = true -> exists d D, length d = n /\ 0 <= D /\ (D = 0 -> d = repeat 0 n) /\
  derivable_pt_lim (fun t => half_squares (moved h s d t) s) 0 (- D) /\
  forall st h' r, nls_loop pinv s normal ml eps (Fin st) 1 0 finf h = (h', Val (SOk r)) ->
    get_data h' s = FinV (addL x (sclL st d)) /\ half_squares h' s = half_squares (moved h s d st) s.
Proof.
  intros Hml. destruct jac_here as (h1 & Jr & EJ & S1 & RJ & LJ & PJ).
  assert (Lx : length x = n) by (unfold x; rewrite map_length, get_data_length; reflexivity).
  destruct (Hn Jr RJ) as (N & EN & SN & TN).
  assert (Ex : get_data h s = FinV x) by exact (ok_data s h h okh_refl).
  assert (Ew : get_loss_per_constraint h s = FinV w) by exact (losses_R s h CF h okh_refl).
  destruct (pinv (FinM N) eps) as [Q| |] eqn:EP.
  - destruct (PI _ _ _ _ SN EP) as (q & -> & T). assert (T' := TN q T). set (p := mulL q (mulL (trL n Jr) w)).
    assert (Lp : length p = n) by (unfold p; rewrite mulL_length; apply T).
    destruct (q_descent n Jr RJ b q T' w Hb (eq_sym LJ)) as [D1 D2]. fold p in D1, D2.
    assert (Nn := dot_self_nonneg (mulL Jr p)). assert (Np := dot_self_nonneg p).
    exists (negL p), (dotL w (mulL Jr p)). assert (Ln : length (negL p) = n) by lens.
    split; auto. split; [rewrite D1; nra|]. split; [|split].
    + intros Z. rewrite (D2 Z). unfold negL. rewrite map_repeat. f_equal. ring.
    + apply is_derive_Reals. assert (Q := squares_deriv (negL p) Ln). rewrite <- PJ in Q by auto.
      replace (- dotL w (mulL Jr p)) with (dotL w (mulL Jr (negL p))); auto.
      rewrite <- dot_neg_r. f_equal. unfold mulL, negL. rewrite map_map. apply map_ext. intros r. apply dot_neg_r.
    + intros st h' r. cbn [nls_loop]. rewrite Hml. cbn [negb]. unfold mbind at 1. rewrite EJ, Ex, Ew.
      destruct (nls_step pinv (FinV x) (FinV w) (FinM Jr) (normal (length (FinV x)) (FinM Jr)) eps (Fin st)) as [y| |] eqn:Es; try discriminate.
      unfold nls_step in Es. rewrite !FinV_length, Lx, EN, EP in Es. injection Es as <-.
      change (map (map Fin) q) with (FinM q). rewrite mtrans_R, mmul_R, mvec_R, vmuls_R, vsub_R.
      assert (Eq : mulL (mmL (length w) q (trL n Jr)) w = p).
      { apply mm_mul; auto; [rewrite <- LJ; apply trL_rows|]. rewrite trL_length. apply T. }
      rewrite Eq. unfold mbind.
      assert (Ea : subL x (sclL st p) = addL x (sclL st (negL p))).
      { apply sub_neg. }
      rewrite Ea. destruct (set_data s (FinV (addL x (sclL st (negL p)))) h1) as [h2 [[]|]] eqn:E2; [|discriminate].
      intros Eh. injection Eh as <- <-. now apply (moved_back (negL p) st h1 h2).
  - exists (repeat 0 n), 0. split; [apply repeat_length|]. split; [lra|]. split; auto. split.
    + apply is_derive_Reals. assert (Q := squares_deriv (repeat 0 n) (repeat_length _ _)). rewrite <- PJ in Q by apply repeat_length.
      replace (- 0) with (dotL w (mulL Jr (repeat 0 n))); auto. rewrite mul_zeros by apply in_repeat0. rewrite dot_repeat0. ring.
    + intros st h' r. cbn [nls_loop]. rewrite Hml. cbn [negb]. unfold mbind at 1. rewrite EJ, Ex, Ew.
      unfold nls_step. rewrite !FinV_length, Lx, EN, EP. discriminate.
  - exists (repeat 0 n), 0. split; [apply repeat_length|]. split; [lra|]. split; auto. split.
    + apply is_derive_Reals. assert (Q := squares_deriv (repeat 0 n) (repeat_length _ _)). rewrite <- PJ in Q by apply repeat_length.
      replace (- 0) with (dotL w (mulL Jr (repeat 0 n))); auto. rewrite mul_zeros by apply in_repeat0. rewrite dot_repeat0. ring.
    + intros st h' r. cbn [nls_loop]. rewrite Hml. cbn [negb]. unfold mbind at 1. rewrite EJ, Ex, Ew.
      unfold nls_step. rewrite !FinV_length, Lx, EN, EP. discriminate.
Qed.
End D.

Lemma small_decrease (f : R -> R) D : 0 < D -> derivable_pt_lim f 0 (- D) -> exists delta, 0 < delta /\ forall t, 0 < t < delta -> f t < f 0.
Proof.
  intros PD H. destruct (H (D / 2) ltac:(lra)) as [[dl Pd] Hd]. exists dl. split; auto. intros t [P1 P2].
  specialize (Hd t ltac:(lra) ltac:(rewrite Rabs_pos_eq; simpl; lra)). rewrite Rplus_0_l in Hd.
  apply Rabs_def2 in Hd as [Hd _]. assert (Hq : (f t - f 0) / t < 0) by lra.
  assert (E : f t - f 0 = (f t - f 0) / t * t) by (field; lra). nra.
Qed.
Lemma moved_zero h s d : valid h s -> length d = get_n_dofs h s -> finite_data h s -> half_squares (moved h s d 0) s = half_squares h s.
Proof.
  intros V Ld Fd. destruct (moved_ok h s d 0 (valid_nd _ _ V) (valid_cells _ _ V) Ld) as (S & D1 & D2 & _).
  assert (S2 : sdeq h (moved h s d 0)).
  { split; auto. intros c _. destruct (in_dec pcell_dec c (cells s)) as [Hi|Hi]; [|now apply D2]. rewrite D1 by auto.
    assert (G := Fd c (proj2 (valid_reg _ _ _ V) Hi)).
    assert (L := chunk_length (cells s) d c Hi ltac:(now rewrite <- (n_dofs_dims h))).
    assert (L2 : length (prim_data h c) = dim c) by apply prim_data_dim. revert L L2 G. generalize (dim c) (chunk (cells s) d c).
    generalize (prim_data h c). intros l. induction l as [|a l IH]; intros k [|y e] L1 L2 G; simpl in *; auto; subst; try discriminate.
    inversion G; subst. f_equal; [|apply (IH (length l)); auto; lia]. rewrite (ffin_inv a) by auto. simpl. f_equal. ring. }
  unfold half_squares. f_equal. f_equal. f_equal. unfold get_loss_per_constraint. apply map_ext. intros k.
  rewrite (struct_getK _ _ _ (proj1 S2)). now apply sd_loss.
Qed.
Lemma C63_derivative_lemma pinv damping m eps s (h : heap xR) : exact_pinv pinv ->
  match damping with Some b => 0 <= b | None => True end ->
  valid h s -> finite_data h s -> all_con_finite h s ->
  (forall k, In k (s_cons s) -> nondegenerate (cfg_of h) h (getK h k)) ->
  exists d D, length d = get_n_dofs h s /\ 0 <= D /\ (D = 0 -> d = repeat 0 (get_n_dofs h s)) /\
    derivable_pt_lim (fun t => half_squares (moved h s d t) s) 0 (- D) /\
    forall st h', solve pinv (one_step damping (Fin m) eps st) s h = (h', Val (SOk tt)) ->
      get_data h' s = get_data (moved h s d st) s /\ half_squares h' s = half_squares (moved h s d st) s.
Proof.
  intros PI Hb V Fd CF ND.
  assert (X : exists normal b, 0 <= b /\
   (forall Jr, rows (get_n_dofs h s) Jr -> exists N, normal (get_n_dofs h s) (FinM Jr) = FinM N /\ symmetric (get_n_dofs h s) N /\
      forall q, truncated_inverse (get_n_dofs h s) N q -> truncated_inverse (get_n_dofs h s) (normL b (get_n_dofs h s) Jr) q) /\
   forall st h', solve pinv (one_step damping (Fin m) eps st) s h = (h', Val (SOk tt)) ->
    exists r, nls_loop pinv s normal (Fin m) eps (Fin st) 1 0 finf h = (h', Val (SOk r))).
  { destruct damping as [b|]; [exists (lm_normal (Fin b)), b | exists gn_normal, 0].
    - split; auto. split.
      + intros Jr RJ. exists (normL b (get_n_dofs h s) Jr). split; [apply lm_normal_R|]. split; [now apply norm_sym | auto].
      + intros st h'. cbn [one_step solve]. unfold lm_run. cbn [lm_beta lm_min_loss lm_eps lm_step lm_max]. change (N.to_nat 1) with 1%nat. unfold mbind.
        destruct (nls_loop _ _ _ _ _ _ _ _ _ _) as [h1 [[r|e]|]]; cbn; try discriminate. intros E. injection E as <-. eauto.
    - split; [lra|]. split.
      + intros Jr RJ. exists (mmL (get_n_dofs h s) (trL (get_n_dofs h s) Jr) Jr). split; [apply gn_normal_R|].
        split; [now apply jtj_sym|]. intros q. now apply jtj_norm0.
      + intros st h'. cbn [one_step solve]. unfold gn_run. cbn [gn_min_loss gn_eps gn_step gn_max]. change (N.to_nat 1) with 1%nat. unfold mbind.
        destruct (nls_loop _ _ _ _ _ _ _ _ _ _) as [h1 [[r|e]|]]; cbn; try discriminate. intros E. injection E as <-. eauto. }
  destruct X as (normal & b & Pb & Hn & Hs).
  destruct (descent s h V Fd CF ND pinv PI normal b Pb Hn (Fin m) eps eq_refl) as (d & D & Ld & PD & ZD & DD & St).
  exists d, D. split; [exact Ld|]. split; [exact PD|]. split; [exact ZD|]. split; [exact DD|]. intros st h' E. destruct (Hs st h' E) as [r Er]. destruct (St st h' r Er) as [G1 G2]. split; auto.
  rewrite G1. destruct (moved_ok h s d st (valid_nd _ _ V) (valid_cells _ _ V) Ld) as (_ & _ & _ & h2 & E2).
  unfold moved. rewrite E2. cbn [fst]. rewrite (C09_set_get _ _ _ _ V E2). unfold FinV, addL, sclL. f_equal. symmetry. apply map2_axpy.
Qed.
Lemma C63_decrease_lemma pinv damping m eps s (h : heap xR) : exact_pinv pinv ->
  match damping with Some b => 0 <= b | None => True end ->
  valid h s -> finite_data h s -> all_con_finite h s ->
  (forall k, In k (s_cons s) -> nondegenerate (cfg_of h) h (getK h k)) ->
  exists delta, 0 < delta /\ forall st, 0 < st < delta -> forall h',
    solve pinv (one_step damping (Fin m) eps st) s h = (h', Val (SOk tt)) ->
    get_data h' s = get_data h s \/ half_squares h' s < half_squares h s.
Proof.
  intros PI Hb V Fd CF ND.
  destruct (C63_derivative_lemma pinv damping m eps s h PI Hb V Fd CF ND) as (d & D & Ld & PD & ZD & DD & St).
  destruct (Req_dec D 0) as [Z|Z].
  - exists 1. split; [lra|]. intros st _ h' E. left. destruct (St st h' E) as [-> _]. rewrite (ZD Z).
    destruct (moved_ok h s (repeat 0 (get_n_dofs h s)) st (valid_nd _ _ V) (valid_cells _ _ V) ltac:(apply repeat_length)) as (_ & _ & _ & h2 & E2).
    unfold moved. rewrite E2. cbn [fst]. rewrite (C09_set_get _ _ _ _ V E2).
    assert (Ex : get_data h s = map Fin (map vx (get_data h s))).
    { apply all_finite_inv. now apply (finite_iff _ _ (valid_keys _ _ V)). }
    rewrite Ex at 2. f_equal. apply (RestLemmas.map2_zeros_r (fun x y => x + st * y)); [rewrite map_length, get_data_length; reflexivity | intros; ring].
  - destruct (small_decrease _ D ltac:(lra) DD) as (dl & Pd & Hd). exists dl. split; auto. intros st Hst h' E. right.
    destruct (St st h' E) as [_ ->]. specialize (Hd st Hst). cbv beta in Hd. now rewrite (moved_zero h s d V Ld Fd) in Hd.
Qed.
