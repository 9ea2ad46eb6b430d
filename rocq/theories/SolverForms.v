(** * The solver lemmas in the form stated in PropsSolver *)
From Coq Require Import List ZArith NArith Arith Bool Lia Sorted Reals Lra.
From Verif Require Import Arith Vec Prim Cons Sketch Solve Api Spec SolverSpec ArithR ExactSpec
  HeapLemmas SolveLemmas WfLemmas DataLemmas SpecLemmas ExactLemmas GradLemmas PureLemmas LossLemmas
  SearchLemmas StepLemmas RMat ExactRun StayLemmas.
Import ListNotations.

Section G.
Context {F : Type} {A : Arith F}.
Lemma C21_search_lemma s d g (h h' : heap F) r : valid h s -> line_search_wolfe s d g h = (h', Val r) ->
  match r with
  | LOk alpha => exists k, k < 15 /\ trial h s d (vdot g d) k alpha
  | LErr SearchFailed => exists a, trial h s d (vdot g d) 14 a
  | LErr NotDescentDirection => h' = h
  end.
Proof.
  intros V E. destruct r as [al|[|]].
  - now destruct (C24_ok_lemma _ _ _ _ _ _ V E) as (_ & _ & _ & _ & X).
  - apply line_search_spec in E as [(_ & X & _)|[_ []]]; auto.
  - destruct (C24_failed_lemma _ _ _ _ _ V E) as (a & X & _). eauto.
Qed.
Lemma C24_rejected_lemma s d g (h : heap F) : valid h s ->
  (snd (line_search_wolfe s d g h) = Val (LErr NotDescentDirection) <-> fge (vdot g d) f0 = true) /\
  (fge (vdot g d) f0 = true -> line_search_wolfe s d g h = (h, Val (LErr NotDescentDirection))).
Proof. exact (C24_reject_lemma s d g h h). Qed.
Lemma at_sd s (h h1 hx : heap F) x : valid h s -> sdeq h h1 -> at_point h1 s x hx -> at_point h s x hx.
Proof.
  intros V S H. assert (V1 : valid h1 s) by (eapply valid_struct; [exact V | apply S]).
  apply (at_frame _ _ _ _ V1) in H as [H1 H2]. apply (at_frame _ _ _ _ V). split; auto.
  eapply frame_trans; [|exact H1]. now apply sd_frame_of.
Qed.
Lemma trial_sd s d m (h h1 : heap F) : valid h s -> sdeq h h1 -> forall k a, trial h1 s d m k a -> trial h s d m k a.
Proof.
  intros V S. assert (Ed := sd_get_data _ _ s S). assert (El := sd_get_loss _ _ s S).
  induction 1 as [|k a Ht IH (hx & Ha & Hb)|k a Ht IH (hx & Ha & Hb) (hy & g & Hc & Hg & Hd)].
  - constructor.
  - apply trial_shrink; auto. exists hx. rewrite Ed, El in *. split; auto. now apply (at_sd s h h1).
  - apply trial_grow; auto.
    + exists hx. rewrite Ed, El in *. split; auto. now apply (at_sd s h h1).
    + exists hy, g. rewrite Ed in *. split; auto. now apply (at_sd s h h1).
Qed.
Lemma C26_gd_lemma pinv s P (h h' : heap F) e : valid h s -> solve pinv (GradientBased P) s h = (h', Val (SErr e)) ->
  exists n hn g le, gd_steps s h n hn /\ snd (get_gradient s hn) = Val g /\ e = LineSearch le /\
    match le with
    | NotDescentDirection => get_data h' s = get_data hn s
    | SearchFailed => exists a, trial hn s (vneg g) (vdot g (vneg g)) 14 a /\
        get_data h' s = vadd (get_data hn s) (vscale a (vneg g))
    end.
Proof.
  intros V E. apply gd_solve in E as (r & E & Hr). destruct r as [[?|e']|]; try discriminate. injection Hr as <-.
  apply gd_run_spec in E as (n & hn & _ & Hs & _ & h1 & g & le & Hg & -> & El).
  exists n, hn, g, le. split; auto. split; [now rewrite Hg|]. split; auto.
  assert (Vn : valid hn s) by (eapply valid_struct; [exact V | apply (frame_struct s); eapply gd_steps_frame; eauto]).
  assert (S1 := gradient_sd _ _ _ _ Hg). assert (V1 : valid h1 s) by (eapply valid_struct; [exact Vn | apply S1]).
  destruct le.
  - apply line_search_spec in El as [(_ & -> & _)|[_ []]]; auto. now apply sd_get_data.
  - destruct (C24_failed_lemma _ _ _ _ _ V1 El) as (a & Ht & Ha & _). exists a. split.
    + eapply trial_sd; eauto.
    + destruct Ha as (_ & -> & _). now rewrite (sd_get_data _ _ s S1).
Qed.
End G.
Local Open Scope R_scope.

Lemma okh_init s (h : heap xR) : valid h s -> finite_data h s -> okh s h h.
Proof. intros V H. split; [apply frame_refl|]. now apply (finite_iff _ _ (valid_keys _ _ V)). Qed.

Lemma C24_exact_lemma s d g (h h' : heap xR) alpha : valid h s -> finite_data h s -> all_con_finite h s ->
  line_search_wolfe s (map Fin d) (map Fin g) h = (h', Val (LOk alpha)) ->
  exists a l l' g', alpha = Fin a /\ 0 < a /\ (exists i j, (i + j < 15)%nat /\ a = (3 / 2) ^ i * (/ 2) ^ j) /\
    get_data h' s = map Fin (map2 (fun x y => x + a * y) (map vx (get_data h s)) d) /\
    get_loss h s = Fin l /\ get_loss h' s = Fin l' /\ snd (get_gradient s h') = Val (map Fin g') /\
    dotL g d < 0 /\ l' <= l + / 10000 * a * dotL g d /\ 9 / 10 * dotL g d <= dotL g' d.
Proof.
  intros V Fd CF E. assert (Ho := okh_init _ _ V Fd).
  destruct (search_R s h V CF h d g h' alpha Ho E) as (a & -> & Pa & Hm & Ho' & (_ & Ha & _) & Hl & g' & Hg & Lg & Hc).
  exists a, (lossv s h), (lossv s h'), g'. split; auto. split; auto. split.
  { destruct (C24_ok_lemma _ _ _ _ _ _ V E) as (_ & _ & _ & _ & k & Hk & Ht). apply trial_R in Ht as (i & j & Hij & Ea).
    exists i, j. split; [lia|]. now injection Ea. }
  split.
  { rewrite Ha. rewrite (ok_data s h h Ho) at 1. change (map Fin d) with (FinV d). rewrite vscale_R, vadd_R. unfold FinV. f_equal.
    unfold addL, sclL. generalize (map vx (get_data h s)). clear. intros u. revert d. induction u as [|x u IH]; intros [|y d]; simpl; auto. now rewrite IH. }
  split; [apply (ok_loss s h CF h Ho)|]. split; [apply (ok_loss s h CF h' Ho')|]. split; auto.
Qed.
Lemma C25_lemma pinv s P (h h' : heap xR) : valid h s -> finite_data h s -> all_con_finite h s ->
  solve pinv (GradientBased P) s h = (h', Val (SOk tt)) ->
  exists n l l', gd_run s P h = (h', Val (SOk n)) /\ get_loss h s = Fin l /\ get_loss h' s = Fin l' /\
    l' <= l /\ ((0 < n)%nat -> l' < l).
Proof.
  intros V Fd CF E. apply gd_solve in E as (r & E & Hr). destruct r as [[n|e']|]; try discriminate.
  assert (Ho := okh_init _ _ V Fd). destruct (gd_run_R s h V CF P h' n Ho E) as (Ho' & H1 & H2).
  exists n, (lossv s h), (lossv s h'). split; auto. split; [apply (ok_loss s h CF h Ho)|]. split; [apply (ok_loss s h CF h' Ho')|]. auto.
Qed.
Lemma C27_lemma s P (h h' : heap xR) it : valid h s -> finite_data h s -> all_con_finite h s ->
  bfgs_run s P h = (h', Val (SOk it)) ->
  (forall n k b hn d H, bfgs_steps s h n k b hn d H -> k = 0%nat) ->
  exists l l', get_loss h s = Fin l /\ get_loss h' s = Fin l' /\ l' <= l /\ ((0 < it)%N -> l' < l).
Proof.
  intros V Fd CF E Hk. assert (Ho := okh_init _ _ V Fd).
  apply bfgs_run_spec in E as (n & k & b & hn & d & H & _ & Hs & -> & Hc).
  pose proof (Hk _ _ _ _ _ _ Hs) as ->. destruct (bfgs_good s h V CF _ _ _ _ _ Ho Hs) as (_ & L1 & L2).
  destruct (bfgs_bst s h V CF _ _ _ _ _ _ Ho Hs) as (On & _).
  assert (Q : okh s h h' /\ lossv s h' = lossv s hn).
  { destruct Hc as [[_ ->]|[[_ ->]|(g & Hg & _)]]; auto. assert (S := gradient_sd _ _ _ _ Hg).
    split; [now apply (ok_sd s h hn)|]. unfold lossv. now rewrite (sd_get_loss _ _ s S). }
  destruct Q as [Ho' El]. exists (lossv s h), (lossv s h'). split; [apply (ok_loss s h CF h Ho)|].
  split; [apply (ok_loss s h CF h' Ho')|]. rewrite El. split; auto. intros Hi. apply L2. lia.
Qed.
Lemma C28_lemma s (h : heap xR) n b hn d H : valid h s -> finite_data h s -> all_con_finite h s ->
  bfgs_steps s h n 0 b hn d H ->
  get_data hn s = d /\
  exists M, H = map (map Fin) M /\ length M = get_n_dofs h s /\ (forall r, In r M -> length r = get_n_dofs h s) /\
    (forall i j, (i < get_n_dofs h s)%nat -> (j < get_n_dofs h s)%nat -> nth j (nth i M []) 0 = nth i (nth j M []) 0) /\
    (forall v, length v = get_n_dofs h s -> (exists x, In x v /\ x <> 0) -> 0 < dotL v (map (fun r => dotL r v) M)) /\
    forall h1 g, get_gradient s hn = (h1, Val g) -> (exists x, In x g /\ x <> Fin 0) ->
      flt (vdot g (mvec (mneg H) g)) f0 = true.
Proof.
  intros V Fd CF Hs. assert (Ho := okh_init _ _ V Fd). destruct (bfgs_good s h V CF _ _ _ _ _ Ho Hs) as (G & _).
  split; [apply G|]. pose proof G as (_ & M & -> & Sq & Sp). exists M. split; [reflexivity|]. unfold nn in *.
  split; [apply Sq|]. split; [apply List.Forall_forall, Sq|]. split; [now apply spd_symmetric|]. split; [apply Sp|].
  intros h1 g Hg Hx. eapply descent_R; eauto.
Qed.
Lemma C28_secant_lemma s (h : heap xR) n b hn d H h1 g alpha h2 h3 h4 g' : valid h s -> finite_data h s -> all_con_finite h s ->
  bfgs_steps s h n 0 b hn d H ->
  get_gradient s hn = (h1, Val g) -> line_search_wolfe s (mvec (mneg H) g) g h1 = (h2, Val (LOk alpha)) ->
  set_data s (vadd d (vscale alpha (mvec (mneg H) g))) h2 = (h3, Val tt) -> get_gradient s h3 = (h4, Val g') ->
  let sv := vscale alpha (mvec (mneg H) g) in let y := vsub g' g in
  flt f0 (vdot sv y) = true /\
  (fle (flit 1 16) (fabs (vdot sv y)) = true -> mvec (bfgs_update H sv y (bfgs_sdoty sv y)) y = sv).
Proof.
  intros V Fd CF Hs Hg Hl Hd Hg' sv y. assert (Ho := okh_init _ _ V Fd).
  destruct (bfgs_good s h V CF _ _ _ _ _ Ho Hs) as (G & _). pose proof (bfgs_bst s h V CF _ _ _ _ _ _ Ho Hs) as B.
  destruct (bfgs_step_R s h V CF _ _ _ _ _ _ _ _ _ _ B G Hg Hl Hd Hg') as (_ & _ & X1 & X2). auto.
Qed.
Lemma C28_error_lemma s P (h h' : heap xR) e : valid h s -> finite_data h s -> all_con_finite h s ->
  flt f0 (bf_grad P) = true -> bfgs_run s P h = (h', Val (SErr (LineSearch e))) ->
  exists n k b hn d H, bfgs_steps s h n k b hn d H /\ (0 < k)%nat.
Proof. intros V Fd CF Hp E. eapply no_nondescent; eauto. now apply okh_init. Qed.

Section G2.
Context {F : Type} {A : Arith F}.
Lemma C26_bfgs_lemma pinv s P (h h' : heap F) e : valid h s -> solve pinv (BFGS P) s h = (h', Val (SErr e)) ->
  exists n k b hn d H g, bfgs_steps s h n k b hn d H /\ snd (get_gradient s hn) = Val g /\
    match e with
    | NonFiniteDirection | LineSearch NotDescentDirection => get_data h' s = get_data hn s
    | FailedTwice => b = true /\ exists a, trial hn s (mvec (mneg H) g) (vdot g (mvec (mneg H) g)) 14%nat a /\
        get_data h' s = vadd (get_data hn s) (vscale a (mvec (mneg H) g))
    | _ => False
    end.
Proof.
  intros V E. apply bfgs_solve in E as (r & E & Hr). destruct r as [[?|e']|]; try discriminate. injection Hr as <-.
  apply bfgs_run_spec in E as (n & k & b & hn & d & H & _ & Hs & _ & _ & h1 & g & Hg & He).
  exists n, k, b, hn, d, H, g. split; auto. split; [now rewrite Hg|].
  assert (Vn : valid hn s) by (eapply valid_struct; [exact V | apply (frame_struct s); eapply bfgs_steps_frame; eauto]).
  assert (S1 := gradient_sd _ _ _ _ Hg). assert (V1 : valid h1 s) by (eapply valid_struct; [exact Vn | apply S1]).
  destruct e; try contradiction.
  - destruct He as [Hf _]. apply gradient_val in Hg as [Hf' _]. congruence.
  - destruct He as (_ & _ & _ & ->). now apply sd_get_data.
  - destruct He as (_ & -> & El). destruct (C24_failed_lemma _ _ _ _ _ V1 El) as (a & Ht & Ha & _). split; auto. exists a. split.
    + eapply trial_sd; eauto.
    + destruct Ha as (_ & -> & _). now rewrite (sd_get_data _ _ s S1).
  - destruct He as (_ & -> & El). apply line_search_spec in El as [(_ & -> & _)|[_ []]]; auto. now apply sd_get_data.
Qed.
End G2.
Lemma fix_no_failure s h0 fixes : valid h0 s -> only_fixed_points h0 s fixes -> finite_data h0 s ->
  forall n k b hn d H, bfgs_steps s h0 n k b hn d H -> k = 0%nat.
Proof.
  intros V FP Fd. assert (CF := fix_finite s h0 fixes V FP Fd).
  assert (O0 := ok0 s h0 V Fd).
  assert (G : forall n k b hn d H, bfgs_steps s h0 n k b hn d H -> k = 0%nat /\
    ((hn = h0 /\ d = get_data h0 s /\ H = mident (get_n_dofs h0 s)) \/ (okh s h0 hn /\ dat s hn = T s fixes))).
  { intros n k b hn d H St.
    assert (Z : forall hn n H b d h1 g, bfgs_steps s h0 n 0%nat b hn d H -> okh s h0 hn ->
      dotL (subL (dat s hn) (T s fixes)) (subL (dat s hn) (T s fixes)) = 0%R ->
      get_gradient s hn = (h1, Val g) -> line_search_wolfe s (mvec (mneg H) g) g h1 = (h1, Val (LErr NotDescentDirection))).
    { clear St. intros hm m Hm bm dm h1 g St Om Z Eg. destruct (fix_grad s h0 fixes V FP Fd hm Om) as (h1' & Eg').
      rewrite Eg' in Eg. injection Eg as <- <-.
      destruct (C28_lemma s h0 _ _ _ _ _ V Fd CF St) as (_ & M & -> & LM & LR & _).
      unfold line_search_wolfe. fold (FinM M). rewrite dir_R, vdot_R.
      assert (X : forall v, dotL (subL (dat s hm) (T s fixes)) v = 0%R).
      { pose proof (dot_self_zero _ Z) as X. revert X. generalize (subL (dat s hm) (T s fixes)). clear.
        induction l as [|x l IH]; intros X [|y v]; unfold dotL in *; simpl; auto. rewrite IH by (intros r Hr; apply X; now right).
        rewrite (X x) by now left. lra. }
      rewrite X. unfold fge. rewrite f0_R, (proj2 (le_true _ _)) by lra. reflexivity. }
    induction St as [|n r b h d H h1 g alpha h2 h3 h4 g' St IH Eg El Es Eg' | n r h d H h1 g h2 St IH Eg El].
    - split; auto.
    - destruct IH as [-> [(-> & -> & ->)|[Oh Dh]]]; split; auto; right.
      + destruct (fix_grad s h0 fixes V FP Fd h0 O0) as (h1' & E1). rewrite E1 in Eg. injection Eg as -> <-.
        destruct (Rle_lt_dec (dotL (subL (dat s h0) (T s fixes)) (subL (dat s h0) (T s fixes))) 0) as [Hz|Hz].
        { pose proof (dot_self_nonneg (subL (dat s h0) (T s fixes))). rewrite (Z h0 n _ b _ _ _ St O0 ltac:(lra) E1) in El. discriminate. }
        assert (S1 := gradient_sd _ _ _ _ E1). assert (O1 := ok_sd s h0 _ _ S1 O0).
        assert (D1 : dat s h1 = dat s h0) by (unfold dat; now rewrite (sd_get_data _ _ s S1)).
        assert (Lg : length (subL (dat s h0) (T s fixes)) = get_n_dofs h0 s) by (rewrite subL_length; rewrite (dat_length s h0); auto; now rewrite T_length with (h0 := h0)).
        assert (X : mvec (mneg (mident (get_n_dofs h0 s))) (FinV (subL (dat s h0) (T s fixes))) = FinV (negL (subL (dat s h0) (T s fixes)))).
        { rewrite mident_R, dir_R, id_mul; auto. }
        rewrite X in *. rewrite <- D1 in Hz. destruct (fix_search s h0 fixes V FP Fd h1 O1 Hz) as (h2' & El' & O2 & _).
        rewrite D1 in El'. rewrite El' in El. injection El as -> <-.
        rewrite (ok_data s h0 h0 O0), vscale_R, vadd_R, scl_one in Es. fold (dat s h0) in Es.
        rewrite sub_self in Es by (rewrite (dat_length s h0), T_length with (h0 := h0); auto).
        destruct (set_T s h0 fixes V h2 O2) as (h3' & E3 & O3 & D3). rewrite E3 in Es. injection Es as ->.
        assert (S4 := gradient_sd _ _ _ _ Eg'). split; [now apply (ok_sd s h0 h3)|]. unfold dat in *. now rewrite (sd_get_data _ _ s S4).
      + rewrite (Z h n H b d h1 g St Oh) in El; [discriminate | | exact Eg]. rewrite Dh, sub_zero, dot_zeros. reflexivity.
    - exfalso. destruct IH as [-> [(-> & -> & ->)|[Oh Dh]]].
      + destruct (fix_grad s h0 fixes V FP Fd h0 O0) as (h1' & E1). rewrite E1 in Eg. injection Eg as -> <-.
        destruct (Rle_lt_dec (dotL (subL (dat s h0) (T s fixes)) (subL (dat s h0) (T s fixes))) 0) as [Hz|Hz].
        { pose proof (dot_self_nonneg (subL (dat s h0) (T s fixes))). rewrite (Z h0 n _ _ _ _ _ St O0 ltac:(lra) E1) in El. discriminate. }
        assert (S1 := gradient_sd _ _ _ _ E1). assert (O1 := ok_sd s h0 _ _ S1 O0).
        assert (D1 : dat s h1 = dat s h0) by (unfold dat; now rewrite (sd_get_data _ _ s S1)).
        assert (Lg : length (subL (dat s h0) (T s fixes)) = get_n_dofs h0 s) by (rewrite subL_length; rewrite (dat_length s h0); auto; now rewrite T_length with (h0 := h0)).
        assert (X : mvec (mneg (mident (get_n_dofs h0 s))) (FinV (subL (dat s h0) (T s fixes))) = FinV (negL (subL (dat s h0) (T s fixes)))).
        { rewrite mident_R, dir_R, id_mul; auto. }
        rewrite X in *. rewrite <- D1 in Hz. destruct (fix_search s h0 fixes V FP Fd h1 O1 Hz) as (h2' & El' & O2 & _).
        rewrite D1 in El'. rewrite El' in El. discriminate.
      + rewrite (Z h n H _ d h1 g St Oh) in El; [discriminate | | exact Eg]. rewrite Dh, sub_zero, dot_zeros. reflexivity. }
  intros. eapply G; eauto.
Qed.
