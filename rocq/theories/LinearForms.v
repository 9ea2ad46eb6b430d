(** * Linear sketches: statements of C69 and C70 *)
From Coq Require Import List ZArith NArith Arith Bool Lia Reals Lra Psatz.
From Verif Require Import Arith Vec Prim Cons Sketch Solve Api Spec SolverSpec ArithR ExactSpec LinearSpec
  HeapLemmas SolveLemmas WfLemmas DataLemmas SpecLemmas ExactLemmas GradLemmas PureLemmas LossLemmas
  SearchLemmas StepLemmas RMat ExactRun SolverForms LinearLemmas.
Import ListNotations.
Local Open Scope R_scope.

Lemma grad_Fin s (h h1 : heap xR) g : get_gradient s h = (h1, Val g) -> exists gr, g = FinV gr /\ length gr = get_n_dofs h s.
Proof. apply (ok_grad s h h h1 g). Qed.

Lemma C69_gap_lemma h s h1 g x hx : valid h s -> finite_data h s -> all_con_finite h s -> linear_sketch h s ->
  get_gradient s h = (h1, Val (map Fin g)) -> at_point h s (map Fin x) hx -> all_satisfied hx s ->
  get_loss h s = Fin (/ 2 * dotL g (minusL (map vx (get_data h s)) x)).
Proof.
  intros V FD CF LS Eg Ha Sx. assert (Ho := okh_init _ _ V FD).
  assert (Hx : okh s h hx) by (eapply ok_at; eauto).
  assert (Ex : get_loss hx s = Fin 0) by (apply C14_zero_lemma; [apply (ok_fin s h CF hx Hx) | exact Sx]).
  destruct (lin_gap s h V CF LS h h1 g x hx 0 Ho Eg Ha Ex) as (l & El & _ & H). rewrite El. f_equal. auto.
Qed.
Lemma C69_convex_lemma h s h1 g x hx : valid h s -> finite_data h s -> all_con_finite h s -> linear_sketch h s ->
  get_gradient s h = (h1, Val (map Fin g)) -> at_point h s (map Fin x) hx ->
  exists l lx, get_loss h s = Fin l /\ get_loss hx s = Fin lx /\ l + dotL g (minusL x (map vx (get_data h s))) <= lx.
Proof.
  intros V FD CF LS Eg Ha. assert (Ho := okh_init _ _ V FD).
  assert (Hx : okh s h hx) by (eapply ok_at; eauto). pose proof (ok_loss s h CF hx Hx) as Ex.
  destruct (lin_gap s h V CF LS h h1 g x hx _ Ho Eg Ha Ex) as (l & El & H & _). exists l, (vx (get_loss hx s)). auto.
Qed.
Lemma dot_zero d n : dotL (repeat 0 n) d = 0.
Proof. unfold dotL. revert d. induction n as [|n IH]; intros [|x d]; simpl; auto. rewrite IH. ring. Qed.
Lemma C69_no_false_minimum_lemma h s h1 g x hx : valid h s -> finite_data h s -> all_con_finite h s -> linear_sketch h s ->
  get_gradient s h = (h1, Val g) -> (forall a, In a g -> a = Fin 0) -> at_point h s (map Fin x) hx ->
  fle (get_loss h s) (get_loss hx s) = true /\ (all_satisfied hx s -> all_satisfied h s).
Proof.
  intros V FD CF LS Eg Z Ha. destruct (grad_Fin _ _ _ _ Eg) as (gr & -> & Lg).
  assert (gr = repeat 0 (length gr)) as G0.
  { apply Forall_eq_repeat, Forall_forall. intros a Hin. assert (E : Fin a = Fin 0) by (apply Z, in_map, Hin). now injection E. }
  destruct (C69_convex_lemma _ _ _ _ _ _ V FD CF LS Eg Ha) as (l & lx & El & Ex & H). rewrite G0, dot_zero in H. split.
  - rewrite El, Ex. apply le_true. lra.
  - intros Sx. pose proof (C69_gap_lemma _ _ _ _ _ _ V FD CF LS Eg Ha Sx) as E.
    rewrite G0, dot_zero in E. intros k Hk. apply (proj1 (C14_zero_lemma h s CF)); auto. rewrite E. f_equal. ring.
Qed.

(** ** C70: the line search *)
Lemma C70_search_lemma h s h1 g d l l1 : valid h s -> finite_data h s -> all_con_finite h s -> linear_sketch h s ->
  get_gradient s h = (h1, Val (map Fin g)) -> length d = get_n_dofs h s -> dotL g d < 0 ->
  get_loss h s = Fin l -> get_loss (moved h s d 1) s = Fin l1 ->
  let m := - dotL g d in let q := l1 - l + m in
  let reachable := q <= 9999 / 10000 * m * 2 ^ 14 /\ m <= 20 * ((3 / 2) ^ 14 * q) in
  0 < q /\
  (reachable -> exists h' a, line_search_wolfe s (map Fin d) (map Fin g) h = (h', Val (LOk (Fin a))) /\
     m <= 20 * (a * q) /\ a * q <= 9999 / 10000 * m) /\
  (~ reachable -> exists h', line_search_wolfe s (map Fin d) (map Fin g) h = (h', Val (LErr SearchFailed))).
Proof.
  intros V FD CF LS Eg Ld Pm El E1 m q reachable. assert (Ho := okh_init _ _ V FD).
  destruct (along s h V CF LS h d h1 g Ho Ld Eg) as (l' & q' & El' & Pq & Hm & K). rewrite El in El'. injection El' as <-.
  assert (q = q') as Eq.
  { specialize (Hm 1). rewrite E1 in Hm. injection Hm as Hm. unfold q, m. lra. }
  rewrite <- Eq in *. clear Eq.
  assert (P : forall t, 0 <= l + t * dotL g d + t * t * q).
  { intros t. eapply loss_pos; [|apply Hm]. apply (ok_fin s h CF). eapply ok_at; [exact V|exact Ho|]. now apply moved_at. }
  assert (Q := quad_nonneg _ _ _ P Pq). assert (q <> 0) by (intros Z; rewrite Z in Q; nra).
  assert (Pq' : 0 < q) by lra. split; [exact Pq'|].
  destruct (search_lin s h V h d g l q Ho Ld Pm Pq' El K) as [S1 S2].
  unfold reachable, m. split.
  - intros [R1 R2]. apply S1. split; [apply Rle_ge; exact R1 | exact R2].
  - intros N. apply S2. intros [R1 R2]. apply N. split; [apply Rge_le; exact R1|exact R2].
Qed.

(** ** accepted steps of gradient descent get closer to every solution *)
Section Closer.
Variables (s : sketch) (h0 : heap xR) (x : list R) (hx : heap xR).
Hypothesis V : valid h0 s.
Hypothesis FD : finite_data h0 s.
Hypothesis CF : all_con_finite h0 s.
Hypothesis LS : linear_sketch h0 s.
Hypothesis Hx : at_point h0 s (map Fin x) hx.
Hypothesis Sx : all_satisfied hx s.
Notation X h := (map vx (get_data h s)).
Lemma at_from h : okh s h0 h -> at_point h s (map Fin x) hx.
Proof.
  intros [[S D] Hf]. assert (Vh : valid h s) by (eapply valid_struct; [exact V|exact S]).
  pose proof (proj1 (at_frame _ _ _ _ V) Hx) as [[Sx' Dx] E]. apply at_frame; auto. split; auto. split.
  - destruct S as (A1&A2&A3&A4&A5&A6&A7), Sx' as (B1&B2&B3&B4&B5&B6&B7).
    unfold struct_eq. rewrite B1, B2, B3, B4, B5, A1, A2, A3, A4, A5. do 5 (split; [auto|]). split.
    + intros k. destruct (A6 k) as [-> ->], (B6 k) as [-> ->]. auto.
    + intros k. now rewrite A7, B7.
  - intros c Hc. now rewrite (Dx c Hc), (D c Hc).
Qed.
Lemma ok_sub h : okh s h0 h -> valid h s /\ finite_data h s /\ all_con_finite h s /\ linear_sketch h s.
Proof.
  intros Ho. assert (Vh := ok_valid s h0 V h Ho). split; auto. split.
  - apply (finite_iff _ _ (valid_keys _ _ Vh)). apply Ho.
  - split; [now apply (ok_fin s h0 CF) | now apply (ok_lin s h0 LS)].
Qed.
Lemma gd_step_closer h h1 g alpha h2 h3 : okh s h0 h -> get_gradient s h = (h1, Val g) ->
  line_search_wolfe s (vneg g) g h1 = (h2, Val (LOk alpha)) ->
  set_data s (vaxpy alpha (vneg g) (flit 1 0) (get_data h s)) h2 = (h3, Val tt) ->
  dist2 (X h3) x <= dist2 (X h) x.
Proof.
  intros Ho Eg El Ed. destruct (grad_Fin _ _ _ _ Eg) as (gr & -> & Lg). rewrite vneg_R in *.
  assert (S1 := gradient_sd _ _ _ _ Eg). assert (Ho1 := ok_sd s h0 _ _ S1 Ho).
  destruct (ok_sub h Ho) as (Vh & Fh & Ch & Lh). destruct (ok_sub h1 Ho1) as (V1 & F1 & C1 & L1).
  destruct (search_R s h0 V CF _ _ _ _ _ Ho1 El) as (a & -> & Pa & Hm & Ho2 & Ha & Hs & _).
  destruct (ok_set s h0 V _ _ _ (proj1 Ho2) Ed) as [Ho3 Hd]. rewrite Hd, (ok_data s h0 h Ho), vaxpy_R.
  assert (Z : 2 * vx (get_loss h s) = dotL gr (minusL (X h) x)).
  { rewrite (C69_gap_lemma h s h1 gr x hx Vh Fh Ch Lh Eg (at_from h Ho) Sx). simpl. lra. }
  assert (Eg1 : exists h1', get_gradient s h1 = (h1', Val (FinV gr))).
  { destruct (C17_twice_lemma h s Vh) as [T _]. rewrite Eg in T. simpl in T.
    destruct (get_gradient s h1) as [h1' r]. exists h1'. simpl in T. now rewrite T. }
  destruct Eg1 as [h1' Eg1].
  assert (Ld : length (negL gr) = get_n_dofs h1 s) by (rewrite negL_length, Lg; apply n_dofs_any).
  destruct (along s h0 V CF LS h1 (negL gr) h1' gr Ho1 Ld Eg1) as (l & q & El1 & Pq & Hmv & K).
  destruct (K a h2 Ha) as (_ & E2 & _). unfold lossv in Hs. rewrite El1, E2 in Hs. simpl in Hs.
  rewrite (sd_get_loss _ _ s S1) in El1. rewrite El1 in Z. simpl in Z. clear El1 E2 K.
  assert (P : forall t, 0 <= l + t * dotL gr (negL gr) + t * t * q).
  { intros t. eapply loss_pos; [|apply Hmv]. apply (ok_fin s h0 CF). eapply ok_at; [exact V|exact Ho1|]. now apply moved_at. }
  assert (Q := quad_nonneg _ _ _ P Pq). rewrite dot_neg in *. set (N := dotL gr gr) in *.
  assert (Lx : length x = length gr) by (rewrite Lg; apply (at_length h s x hx), at_from, Ho).
  assert (LX : length (X h) = length gr) by (rewrite map_length, data_length; auto).
  assert (Pq' : 0 < q) by (destruct Pq as [Pq|Eq]; [exact Pq|rewrite <- Eq in Q; exfalso; assert (0 < N * N) by (apply Rmult_lt_0_compat; lra); lra]).
  assert (A1 : a * q <= N) by (apply (Rmult_le_reg_l a); [exact Pa|]; assert (0 < a * N) by (apply Rmult_lt_0_compat; lra); lra).
  assert (A2 : a * N <= 4 * l) by (apply (Rmult_le_reg_r q); [exact Pq'|]; assert (N * (a * q) <= N * N) by (apply Rmult_le_compat_l; lra); lra).
  unfold FinV. rewrite !map_vx_Fin.
  rewrite dist2_step by auto. fold N. rewrite <- Z. assert (0 <= a * (4 * l - a * N)) by (apply Rmult_le_pos; lra). lra.
Qed.
Lemma gd_steps_closer n h : gd_steps s h0 n h -> okh s h0 h /\ dist2 (X h) x <= dist2 (X h0) x.
Proof.
  induction 1 as [|n h h1 g alpha h2 h3 Hs (O1 & D1) Hg Hl Hd].
  - split; [now apply okh_init | lra].
  - split; [apply (gd_step_R s h0 V CF _ _ _ _ _ _ O1 Hg Hl Hd)|]. pose proof (gd_step_closer _ _ _ _ _ _ O1 Hg Hl Hd). lra.
Qed.
Lemma gd_run_closer P h' n : gd_run s P h0 = (h', Val (SOk n)) -> okh s h0 h' /\ dist2 (X h') x <= dist2 (X h0) x.
Proof.
  intros E. apply gd_run_spec in E as (m & hn & _ & Hs & -> & g & Hg & _).
  apply gd_steps_closer in Hs as (O1 & D1). assert (S := gradient_sd _ _ _ _ Hg).
  split; [now apply (ok_sd s h0 hn)|]. now rewrite (sd_get_data _ _ s S).
Qed.


Lemma gd_run_bound P h' n lo e : gd_run s P h0 = (h', Val (SOk n)) -> gd_min_loss P = Fin lo -> gd_min_grad P = Fin e ->
  exists l', get_loss h' s = Fin l' /\ dist2 (X h') x <= dist2 (X h0) x /\
    (l' < lo \/ l' <= / 2 * e * sqrt (dist2 (X h0) x) \/ n = N.to_nat (gd_max P)).
Proof.
  intros E Elo Ee. destruct (gd_run_closer _ _ _ E) as [Ho D]. exists (vx (get_loss h' s)).
  split; [apply (ok_loss s h0 CF h' Ho)|]. split; [exact D|].
  destruct (C22_gd_lemma s P h0 h' n V E) as [H|[(g & Hg & H)|H]]; [left|right; left|now right; right].
  - rewrite Elo, (ok_loss s h0 CF h' Ho) in H. now apply lt_true in H.
  - destruct (ok_sub h' Ho) as (V' & F' & C' & L').
    destruct (get_gradient s h') as [h1 r] eqn:Eg. simpl in Hg. subst r. destruct (grad_Fin _ _ _ _ Eg) as (gr & -> & Lg).
    rewrite Ee, vnorm_R in H. apply lt_true in H.
    rewrite (C69_gap_lemma h' s h1 gr x hx V' F' C' L' Eg (at_from h' Ho) Sx). simpl.
    assert (Lx : length x = length gr) by (rewrite Lg; apply (at_length h' s x hx), at_from, Ho).
    assert (LX : length (X h') = length gr) by (rewrite map_length, data_length; auto).
    assert (Cs := dotL_cauchy gr (minusL (X h') x)). rewrite minusL_length in Cs by congruence. specialize (Cs (eq_sym LX)).
    rewrite <- dist2_dot in Cs. set (A := sqrt (dotL gr gr)) in *.
    assert (A * A = dotL gr gr) by (apply sqrt_sqrt, dotL_sq_nonneg).
    assert (P0 : 0 <= dist2 (X h') x) by (rewrite dist2_dot; apply dotL_sq_nonneg).
    assert (B2 : sqrt (dist2 (X h') x) * sqrt (dist2 (X h') x) = dist2 (X h') x) by (apply sqrt_sqrt; auto).
    assert (B3 : sqrt (dist2 (X h') x) <= sqrt (dist2 (X h0) x)) by (apply sqrt_le_1_alt; auto).
    pose proof (sqrt_pos (dotL gr gr)) as PA. fold A in PA. pose proof (sqrt_pos (dist2 (X h') x)) as PB.
    set (B := sqrt (dist2 (X h') x)) in *. set (C := sqrt (dist2 (X h0) x)) in *.
    assert (dotL gr (minusL (X h') x) <= A * B).
    { apply Rnot_lt_le. intros Q. assert (0 <= A * B) by (now apply Rmult_le_pos).
      assert (A * B * (A * B) < dotL gr (minusL (X h') x) * dotL gr (minusL (X h') x)) by nra.
      replace (A * B * (A * B)) with (A * A * (B * B)) in H2 by ring. rewrite H0, B2 in H2. lra. }
    assert (A * B <= e * C) by (apply Rmult_le_compat; lra). lra.
Qed.
End Closer.
