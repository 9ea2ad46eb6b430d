(** * Solver runs in exact arithmetic *)
From Coq Require Import List ZArith NArith Arith Bool Lia Sorted Reals Lra.
From Verif Require Import Arith Vec Prim Cons Sketch Solve Api Spec SolverSpec ArithR ExactSpec
  HeapLemmas SolveLemmas WfLemmas DataLemmas SpecLemmas ExactLemmas GradLemmas PureLemmas LossLemmas
  SearchLemmas StepLemmas RMat.
Import ListNotations.
Local Open Scope R_scope.

Lemma lt_true a b : flt (Fin a) (Fin b) = true <-> a < b.
Proof. rewrite lt_R. unfold Rltb. destruct (Rlt_dec a b); split; auto; discriminate || lra. Qed.
Lemma lt_false a b : flt (Fin a) (Fin b) = false <-> b <= a.
Proof. rewrite lt_R. unfold Rltb. destruct (Rlt_dec a b); split; auto; discriminate || lra. Qed.
Lemma le_true a b : fle (Fin a) (Fin b) = true <-> a <= b.
Proof. rewrite le_R. unfold Rleb. destruct (Rle_dec a b); split; auto; discriminate || lra. Qed.
Lemma le_false a b : fle (Fin a) (Fin b) = false <-> b < a.
Proof. rewrite le_R. unfold Rleb. destruct (Rle_dec a b); split; auto; discriminate || lra. Qed.

Lemma l10_R : flit 1 0 = Fin 1. Proof. simpl. f_equal. lra. Qed.
Lemma l51_R : flit 5 1 = Fin (/ 2). Proof. simpl. f_equal. lra. Qed.
Lemma l151_R : flit 15 1 = Fin (3 / 2). Proof. simpl. f_equal. lra. Qed.
Lemma l14_R : flit 1 4 = Fin (/ 10000). Proof. simpl. f_equal. lra. Qed.
Lemma l91_R : flit 9 1 = Fin (9 / 10). Proof. simpl. f_equal. lra. Qed.
Lemma l116_R : flit 1 16 = Fin (/ 10000000000000000). Proof. simpl. f_equal. lra. Qed.
Lemma l16_R : flit 1 6 = Fin (/ 1000000). Proof. simpl. f_equal. lra. Qed.

Lemma trial_R h s d m k a : trial h s d m k a -> exists i j, (i + j = k)%nat /\ a = Fin ((3 / 2) ^ i * (/ 2) ^ j).
Proof.
  induction 1 as [|k a _ (i & j & Hk & ->) _|k a _ (i & j & Hk & ->) _ _].
  - exists 0%nat, 0%nat. split; auto. rewrite l10_R. f_equal. simpl. lra.
  - exists i, (S j). split; [lia|]. rewrite l51_R, mul_R. f_equal. simpl. ring.
  - exists (S i), j. split; [lia|]. rewrite l151_R, mul_R. f_equal. simpl. ring.
Qed.
Lemma trial_pos h s d m k a : trial h s d m k a -> exists r, a = Fin r /\ 0 < r.
Proof.
  intros H. apply trial_R in H as (i & j & _ & ->). eexists. split; [reflexivity|].
  apply Rmult_lt_0_compat; apply pow_lt; lra.
Qed.

Section S.
Variables (s : sketch) (h0 : heap xR).
Hypothesis V : valid h0 s.
Hypothesis CF : all_con_finite h0 s.

Definition okh (h : heap xR) : Prop := frame s h0 h /\ all_finite (get_data h s) = true.
Lemma ok_valid h : okh h -> valid h s.
Proof. intros [H _]. eapply valid_struct; [exact V | now apply (frame_struct s)]. Qed.
Lemma ok_sd h h' : sdeq h h' -> okh h -> okh h'.
Proof.
  intros S [H1 H2]. split; [eapply frame_trans; [exact H1 | now apply sd_frame_of]|].
  now rewrite (sd_get_data _ _ s S).
Qed.
Lemma ok_set h v h' : frame s h0 h -> set_data s v h = (h', Val tt) -> okh h' /\ get_data h' s = v.
Proof.
  intros Hf E. assert (Vh : valid h s) by (eapply valid_struct; [exact V | now apply (frame_struct s)]).
  assert (G := C09_set_get _ _ _ _ Vh E). split; auto. split; [eapply frame_trans; [exact Hf | eapply set_frame, E]|].
  rewrite G. now apply set_data_inv in E as (_ & E & _).
Qed.
Lemma struct_refs' (h h' : heap xR) c : struct_eq h h' -> prim_refs h' c = prim_refs h c.
Proof.
  intros S. pose proof S as (_&_&_&_&_&H6&H7). destruct c; simpl; auto.
  - now rewrite (struct_getL _ _ _ S).
  - now destruct (H6 l) as [-> _].
  - now rewrite H7.
Qed.
Lemma struct_deps (h h' : heap xR) c : struct_eq h h' -> deps h' c = deps h c.
Proof. intros S. unfold deps. apply flat_map_ext. intros r. now rewrite (struct_refs' _ _ _ S). Qed.
Lemma ok_fin h : okh h -> all_con_finite h s.
Proof.
  intros [[S D] Hf] k Hk. rewrite (struct_getK _ _ _ S). destruct (CF k Hk) as [C1 C2]. split; auto.
  intros d Hd. rewrite (struct_deps _ _ _ S) in Hd.
  destruct (in_dec pcell_dec d (cells s)) as [Hi|Hi]; [now apply (proj1 (get_data_finite_iff s h) Hf)|].
  rewrite (D d Hi). auto.
Qed.
Lemma ok_loss h : okh h -> get_loss h s = Fin (vx (get_loss h s)).
Proof. intros H. apply ok_fin in H. apply get_loss_R in H. now rewrite H. Qed.
Lemma ok_data h : okh h -> get_data h s = FinV (map vx (get_data h s)).
Proof. intros [_ H]. now apply all_finite_inv. Qed.
Lemma ok_grad h h1 g : get_gradient s h = (h1, Val g) -> exists gr, g = FinV gr /\ length gr = get_n_dofs h0 s.
Proof.
  intros E. apply gradient_val in E as [E1 E2]. exists (map vx g). split; [now apply all_finite_inv|].
  now rewrite map_length, E2, (n_dofs_any h h0).
Qed.

Definition lossv (h : heap xR) : R := vx (get_loss h s).

(** ** an accepted line search step *)
Lemma search_R h d g h' alpha : okh h ->
  line_search_wolfe s (FinV d) (FinV g) h = (h', Val (LOk alpha)) ->
  exists a, alpha = Fin a /\ 0 < a /\ dotL g d < 0 /\ okh h' /\
    at_point h s (vadd (get_data h s) (vscale alpha (FinV d))) h' /\
    lossv h' <= lossv h + / 10000 * a * dotL g d /\
    exists g', snd (get_gradient s h') = Val (FinV g') /\ length g' = get_n_dofs h0 s /\ 9 / 10 * dotL g d <= dotL g' d.
Proof.
  intros Ho E. assert (Vh := ok_valid h Ho).
  destruct (C24_ok_lemma _ _ _ _ _ _ Vh E) as (Hm & Ha & Hs & (g' & Hg & Hc) & k & _ & Ht).
  destruct (trial_pos _ _ _ _ _ _ Ht) as (a & -> & Pa). exists a.
  assert (Ho' : okh h').
  { pose proof (proj1 (at_frame _ _ _ _ Vh) Ha) as [Hf Hd]. split; [eapply frame_trans; [apply Ho | exact Hf]|].
    rewrite Hd, (ok_data h Ho), vscale_R, vadd_R. apply finite_FinV. }
  rewrite vdot_R in *. unfold fge in *. rewrite f0_R in Hm. apply le_false in Hm.
  rewrite (ok_loss h Ho), (ok_loss h' Ho'), l14_R, !mul_R, add_R in Hs. apply le_true in Hs.
  split; auto. split; auto. split; auto. split; auto. split; auto. split; [exact Hs|].
  destruct (get_gradient s h') as [h1 r] eqn:Eg. simpl in Hg. subst r.
  destruct (ok_grad _ _ _ Eg) as (gr & -> & Lg). exists gr. split; auto. split; auto.
  rewrite vdot_R, l91_R, mul_R in Hc. now apply le_true in Hc.
Qed.

(** ** gradient descent *)
Lemma gd_step_R h h1 g alpha h2 h3 : okh h -> get_gradient s h = (h1, Val g) ->
  line_search_wolfe s (vneg g) g h1 = (h2, Val (LOk alpha)) ->
  set_data s (vaxpy alpha (vneg g) (flit 1 0) (get_data h s)) h2 = (h3, Val tt) ->
  okh h3 /\ lossv h3 < lossv h.
Proof.
  intros Ho Eg El Ed. assert (S1 := gradient_sd _ _ _ _ Eg). assert (Ho1 := ok_sd _ _ S1 Ho).
  destruct (ok_grad _ _ _ Eg) as (gr & -> & Lg). rewrite vneg_R in *.
  destruct (search_R _ _ _ _ _ Ho1 El) as (a & -> & Pa & Hm & Ho2 & Ha & Hs & _).
  destruct (ok_set _ _ _ (proj1 Ho2) Ed) as [Ho3 Hd]. split; auto.
  assert (S3 : sdeq h2 h3).
  { eapply at_unique; [exact Ha | | now apply ok_valid].
    apply at_frame; [now apply ok_valid|]. split.
    - eapply frame_trans; [apply at_frame in Ha as [Ha _]; [exact Ha|now apply ok_valid] | eapply set_frame, Ed].
    - rewrite Hd, (sd_get_data _ _ s S1), (ok_data h Ho), vscale_R, vadd_R, vaxpy_R. reflexivity. }
  unfold lossv in *. rewrite (sd_get_loss _ _ s S3). rewrite (sd_get_loss _ _ s S1) in Hs.
  assert (0 < a * - dotL gr (negL gr)) by (apply Rmult_lt_0_compat; lra). lra.
Qed.
Lemma gd_steps_R n h : okh h0 -> gd_steps s h0 n h -> okh h /\ lossv h <= lossv h0 /\ ((0 < n)%nat -> lossv h < lossv h0).
Proof.
  intros Ho. induction 1 as [|n h h1 g alpha h2 h3 Hs (O1 & L1 & L2) Hg Hl Hd].
  - split; auto. split; [lra | intros; lia].
  - destruct (gd_step_R _ _ _ _ _ _ O1 Hg Hl Hd) as [O3 L3]. split; auto. split; [lra|intros; lra].
Qed.
Lemma gd_run_R P h' n : okh h0 -> gd_run s P h0 = (h', Val (SOk n)) ->
  okh h' /\ lossv h' <= lossv h0 /\ ((0 < n)%nat -> lossv h' < lossv h0).
Proof.
  intros Ho E. apply gd_run_spec in E as (m & hn & _ & Hs & -> & g & Hg & _).
  apply gd_steps_R in Hs as (O1 & L1 & L2); auto. assert (S := gradient_sd _ _ _ _ Hg).
  split; [now apply (ok_sd hn)|]. unfold lossv in *. rewrite (sd_get_loss _ _ s S). auto.
Qed.

(** ** BFGS *)
Lemma search_failed_R h d g h' : okh h -> line_search_wolfe s (FinV d) (FinV g) h = (h', Val (LErr SearchFailed)) ->
  okh h' /\ exists a, get_data h' s = FinV (addL (map vx (get_data h s)) (sclL a d)).
Proof.
  intros Ho E. assert (Vh := ok_valid h Ho).
  destruct (C24_failed_lemma _ _ _ _ _ Vh E) as (al & Ht & Ha & _).
  destruct (trial_pos _ _ _ _ _ _ Ht) as (a & -> & Pa).
  pose proof (proj1 (at_frame _ _ _ _ Vh) Ha) as [Hf Hd]. rewrite (ok_data h Ho), vscale_R, vadd_R in Hd. split.
  - split; [eapply frame_trans; [apply Ho | exact Hf]|]. rewrite Hd. apply finite_FinV.
  - exists a. exact Hd.
Qed.
Lemma sdoty_R u v : bfgs_sdoty (FinV u) (FinV v) = Fin (if Rlt_dec (Rabs (dotL u v)) (/ 10000000000000000) then dotL u v + / 1000000 else dotL u v).
Proof.
  unfold bfgs_sdoty. rewrite vdot_R, abs_R, l116_R, l16_R, lt_R. unfold Rltb.
  destruct (Rlt_dec (Rabs (dotL u v)) _); reflexivity.
Qed.
Lemma sdoty_nonzero x : (if Rlt_dec (Rabs x) (/ 10000000000000000) then x + / 1000000 else x) <> 0.
Proof. destruct (Rlt_dec _ _) as [H|H]; revert H; unfold Rabs; destruct (Rcase_abs x); lra. Qed.

Definition nn := get_n_dofs h0 s.
(** state of the loop in general: everything finite *)
Definition bst (h : heap xR) (data : vec xR) (H : mat xR) : Prop :=
  okh h /\ (exists d, data = FinV d /\ length d = nn) /\ exists M, H = FinM M /\ square nn M.
(** ... and as long as no search has failed *)
Definition bgood (h : heap xR) (data : vec xR) (H : mat xR) : Prop :=
  get_data h s = data /\ exists M, H = FinM M /\ square nn M /\ spd nn M.

Lemma dir_R M g : mvec (mneg (FinM M)) (FinV g) = FinV (negL (mulL M g)).
Proof. now rewrite mneg_R, mvec_R, mul_negm. Qed.
Lemma mident_st : exists M, mident nn = FinM M /\ square nn M /\ spd nn M.
Proof. exists (idL nn). split; [apply mident_R|]. split; [apply id_square | apply id_spd]. Qed.

Lemma bfgs_bst n k b h data H : okh h0 -> bfgs_steps s h0 n k b h data H -> bst h data H.
Proof.
  intros Ho. induction 1 as [|n k b h data H h1 g alpha h2 h3 h4 g' Hs (O & (d & -> & Ld) & M & -> & Sq) Hg Hl Hd Hg' | n k h data H h1 g h2 Hs (O & (d & -> & Ld) & M & -> & Sq) Hg Hl].
  - split; auto. split.
    + exists (map vx (get_data h0 s)). split; [now apply ok_data|]. rewrite map_length. apply get_data_length.
    + destruct mident_st as (M & E & Sq & _). exists M. split; auto.
  - assert (S1 := gradient_sd _ _ _ _ Hg). assert (O1 := ok_sd _ _ S1 O).
    destruct (ok_grad _ _ _ Hg) as (gr & -> & Lg). fold nn in Lg. rewrite dir_R in *.
    destruct (search_R _ _ _ _ _ O1 Hl) as (a & -> & Pa & Hm & O2 & Ha & Hls & _).
    rewrite vscale_R, vadd_R in Hd |- *.
    destruct (ok_set _ _ _ (proj1 O2) Hd) as [O3 Hd3]. assert (S4 := gradient_sd _ _ _ _ Hg').
    destruct Sq as [Lm Hr].
    split; [now apply (ok_sd h3)|]. split.
    + eexists. split; [reflexivity|]. lens.
    + destruct (ok_grad _ _ _ Hg') as (gr' & -> & Lg'). fold nn in Lg'. rewrite vsub_R, sdoty_R.
      rewrite bfgs_update_R by apply sdoty_nonzero. eexists. split; [reflexivity|]. apply upd_square; [now split | lens].
  - assert (S1 := gradient_sd _ _ _ _ Hg). assert (O1 := ok_sd _ _ S1 O).
    destruct (ok_grad _ _ _ Hg) as (gr & -> & Lg). fold nn in Lg. rewrite dir_R in *.
    destruct (search_failed_R _ _ _ _ O1 Hl) as [O2 _].
    split; auto. split; [eauto|]. rewrite FinV_length, Ld. destruct mident_st as (M' & E & Sq' & _). exists M'. auto.
Qed.

(** one accepted step from a good state *)
Lemma bfgs_step_R h data H h1 g alpha h2 h3 h4 g' : bst h data H -> bgood h data H ->
  get_gradient s h = (h1, Val g) ->
  line_search_wolfe s (mvec (mneg H) g) g h1 = (h2, Val (LOk alpha)) ->
  set_data s (vadd data (vscale alpha (mvec (mneg H) g))) h2 = (h3, Val tt) ->
  get_gradient s h3 = (h4, Val g') ->
  let sv := vscale alpha (mvec (mneg H) g) in let y := vsub g' g in
  let H' := bfgs_update H sv y (bfgs_sdoty sv y) in
  bgood h4 (vadd data sv) H' /\ lossv h4 < lossv h /\ flt f0 (vdot sv y) = true /\
  (fle (flit 1 16) (fabs (vdot sv y)) = true -> mvec H' y = sv).
Proof.
  intros (O & (d & -> & Ld) & _) (Gd & M & -> & Sq & Sp) Hg Hl Hd Hg'.
  assert (S1 := gradient_sd _ _ _ _ Hg). assert (O1 := ok_sd _ _ S1 O).
  destruct (ok_grad _ _ _ Hg) as (gr & -> & Lg). fold nn in Lg. rewrite dir_R in *.
  destruct (search_R _ _ _ _ _ O1 Hl) as (a & -> & Pa & Hm & O2 & Ha & Hls & g2 & Hg2 & Lg2 & Hc). fold nn in Lg2.
  destruct (ok_set _ _ _ (proj1 O2) Hd) as [O3 Hd3]. assert (S4 := gradient_sd _ _ _ _ Hg').
  assert (S3 : sdeq h2 h3).
  { eapply at_unique; [exact Ha | | now apply ok_valid]. apply at_frame; [now apply ok_valid|]. split.
    - eapply frame_trans; [apply at_frame in Ha as [Ha _]; [exact Ha|now apply ok_valid] | eapply set_frame, Hd].
    - rewrite Hd3, (sd_get_data _ _ s S1), Gd. reflexivity. }
  assert (Eg : g' = FinV g2).
  { assert (X : snd (get_gradient s h2) = snd (get_gradient s h3)).
    { apply sdeq_iff in S3 as [X1 X2]. apply C17_gradient_lemma; auto. now apply ok_valid. }
    rewrite Hg2, Hg' in X. simpl in X. congruence. }
  subst g'. cbv zeta. rewrite vscale_R, vadd_R in Hd, Hd3. rewrite !vscale_R, vadd_R, vsub_R, !vdot_R, sdoty_R.
  set (p := negL (mulL M gr)) in *. set (sv := sclL a p) in *. set (y := subL g2 gr).
  destruct Sq as [Lm Hr].
  assert (Lp : length p = nn) by (unfold p; lens).
  assert (Ls : length sv = nn) by (unfold sv; lens). assert (Ly : length y = nn) by (unfold y; lens).
  assert (Psy : 0 < dotL sv y).
  { unfold sv, y. rewrite dot_scl_l, dot_sub_r by lia. rewrite (dot_comm p g2), (dot_comm p gr).
    apply Rmult_lt_0_compat; auto. lra. }
  set (c := if Rlt_dec _ _ then _ else _). assert (Pc : 0 < c) by (unfold c; destruct (Rlt_dec _ _); lra).
  rewrite bfgs_update_R by lra. split; [|split; [|split]].
  - split; [rewrite (sd_get_data _ _ s S4); exact Hd3|]. eexists. split; [reflexivity|].
    split; [apply upd_square; [now split | auto]|].
    apply upd_spd; auto; [now split | lra].
  - unfold lossv in *. rewrite (sd_get_loss _ _ s S4), (sd_get_loss _ _ s S3). rewrite (sd_get_loss _ _ s S1) in Hls.
    assert (0 < a * - dotL gr p) by (apply Rmult_lt_0_compat; lra). lra.
  - rewrite f0_R. now apply lt_true.
  - intros Hb. rewrite l116_R, abs_R in Hb. apply le_true in Hb. rewrite mvec_R. f_equal.
    apply (upd_secant nn); auto; [now split | lra |]. unfold c. destruct (Rlt_dec _ _); [lra|reflexivity].
Qed.
Lemma bfgs_good n b h data H : okh h0 -> bfgs_steps s h0 n 0 b h data H ->
  bgood h data H /\ lossv h <= lossv h0 /\ ((0 < n)%nat -> lossv h < lossv h0).
Proof.
  intros Ho S. remember 0%nat as k eqn:Ek. induction S as [|n k b h data H h1 g alpha h2 h3 h4 g' Hs IH Hg Hl Hd Hg' | n k h data H h1 g h2 Hs IH Hg Hl].
  - split; [|split; [lra | lia]]. split; auto. apply mident_st.
  - destruct (IH Ek) as (G & L1 & L2). pose proof (bfgs_bst _ _ _ _ _ _ Ho Hs) as B.
    destruct (bfgs_step_R _ _ _ _ _ _ _ _ _ _ B G Hg Hl Hd Hg') as (G' & L3 & _). split; auto. split; [|intros _]; lra.
  - discriminate.
Qed.

(** ** consequences *)
Lemma descent_R h data H h1 g : bgood h data H -> get_gradient s h = (h1, Val g) ->
  (exists x, In x g /\ x <> Fin 0) -> flt (vdot g (mvec (mneg H) g)) f0 = true.
Proof.
  intros (_ & M & -> & Sq & Sp) Hg (x & Hx & Nx). destruct (ok_grad _ _ _ Hg) as (gr & -> & Lg). fold nn in Lg.
  rewrite dir_R, vdot_R, dot_neg_r, f0_R. apply lt_true.
  assert (0 < bil M gr gr); [|unfold bil in *; lra].
  apply Sp; auto.
  unfold FinV in Hx. apply in_map_iff in Hx as (r & <- & Hr). exists r. split; auto. congruence.
Qed.
Lemma vnorm_inf_zero g : (forall x, In x g -> x = Fin 0) -> vnorm_inf g = Fin 0.
Proof.
  intros H. unfold vnorm_inf. rewrite f0_R. induction g as [|x g IH]; simpl; auto.
  rewrite (H x (or_introl eq_refl)), abs_R, Rabs_R0. replace (fmax (Fin 0) (Fin 0)) with (Fin 0).
  - apply IH. intros; apply H; now right.
  - rewrite <- f0_R at 3. rewrite max0_R. f_equal. symmetry. apply Rmax_left. lra.
Qed.
(** BFGS can only report a non-descent direction after a failed line search *)
Lemma no_nondescent P h' e : okh h0 -> flt f0 (bf_grad P) = true -> bfgs_run s P h0 = (h', Val (SErr (LineSearch e))) ->
  exists n k b h data H, bfgs_steps s h0 n k b h data H /\ (0 < k)%nat.
Proof.
  intros Ho Hp E. apply bfgs_run_spec in E as (n & k & b & hn & d & H & _ & Hs & _ & _ & h1 & g & Hg & Hn & -> & El).
  exists n, k, b, hn, d, H. split; auto. destruct k; [|lia]. exfalso.
  destruct (bfgs_good _ _ _ _ _ Ho Hs) as (G & _).
  destruct (line_search_spec _ _ _ _ _ _ (ok_valid _ (ok_sd _ _ (gradient_sd _ _ _ _ Hg) (proj1 (bfgs_bst _ _ _ _ _ _ Ho Hs)))) El) as [[Hm _]|[_ []]].
  destruct (in_dec (fun a b : bool => bool_dec a b) false (map (fun x => feq x (Fin 0)) g)) as [Hi|Hi].
  - apply in_map_iff in Hi as (x & Hx & Hi).
    assert (Nx : x <> Fin 0).
    { intros Ex. rewrite Ex in Hx. simpl in Hx. unfold Reqb in Hx. destruct (Req_EM_T 0 0); [discriminate|lra]. }
    assert (D := descent_R _ _ _ _ _ G Hg (ex_intro _ x (conj Hi Nx))).
    destruct (ok_grad _ _ _ Hg) as (gr & -> & Lg). destruct G as (_ & M & -> & _).
    rewrite dir_R, vdot_R, f0_R in *. unfold fge in Hm. apply lt_true in D. apply le_true in Hm. lra.
  - rewrite vnorm_inf_zero, <- f0_R in Hn; [congruence|]. intros x Hx.
    destruct (ok_grad _ _ _ Hg) as (gr & -> & Lg). unfold FinV in Hx, Hi. apply in_map_iff in Hx as (r & <- & Hr).
    destruct (Req_EM_T r 0) as [->|Nr]; auto. exfalso. apply Hi. rewrite map_map. apply in_map_iff. exists r. split; auto.
    simpl. unfold Reqb. destruct (Req_EM_T r 0); [contradiction|auto].
Qed.
End S.
