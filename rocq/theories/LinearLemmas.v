(** * Linear sketches: the loss is a convex quadratic function (C69, C70) *)
From Coq Require Import List ZArith NArith Arith Bool Lia Reals Lra Psatz.
From Coquelicot Require Import Coquelicot.
From Verif Require Import Arith Vec Prim Cons Sketch Solve Api Spec SolverSpec ArithR ExactSpec LinearSpec
  HeapLemmas SolveLemmas WfLemmas DataLemmas SpecLemmas ExactLemmas DerivLemmas GradLemmas PureLemmas LossLemmas
  SearchLemmas StepLemmas RMat ExactRun.
Import ListNotations.
Local Open Scope R_scope.

Lemma linear_nondeg g h c : linear c = true -> nondegenerate g h c.
Proof. destruct c; try discriminate; intros _; exact I. Qed.

Lemma half_sq e : 0 <= e * e / 2.
Proof. pose proof (Rle_0_sqr e) as H. unfold Rsqr in H. lra. Qed.
(** ** one constraint, then the sum *)
Lemma lin_one g D h c : linear c = true -> exists b q, 0 <= q /\
  forall t, lossR (shift g D t) h c = lossR g h c + t * b + t * t * q.
Proof.
  destruct c as [| | | |p1 p2 d|p1 p2 d|p x y| |l|l| |]; try discriminate; intros _; unfold lossR; simpl.
  - set (r := cx g p2 - cx g p1 - vx d). set (e := cx D p2 - cx D p1). exists (r * e), (e * e / 2).
    split; [apply half_sq|]. intros t. unfold sq. replace (cx g p2 + t * cx D p2 - (cx g p1 + t * cx D p1) - vx d) with (r + t * e) by (unfold r, e; ring). field.
  - set (r := cy g p2 - cy g p1 - vx d). set (e := cy D p2 - cy D p1). exists (r * e), (e * e / 2).
    split; [apply half_sq|]. intros t. unfold sq. replace (cy g p2 + t * cy D p2 - (cy g p1 + t * cy D p1) - vx d) with (r + t * e) by (unfold r, e; ring). field.
  - exists ((cx g p - vx x) * cx D p + (cy g p - vx y) * cy D p), ((cx D p * cx D p + cy D p * cy D p) / 2).
    split; [pose proof (half_sq (cx D p)); pose proof (half_sq (cy D p)); lra|]. intros t. unfold sq. field.
  - set (a := l_start (getL h l)). set (b := l_end (getL h l)).
    exists ((cy g b - cy g a) * (cy D b - cy D a)), ((cy D b - cy D a) * (cy D b - cy D a) / 2).
    split; [apply half_sq|]. intros t. unfold sq. field.
  - set (a := l_start (getL h l)). set (b := l_end (getL h l)).
    exists ((cx g b - cx g a) * (cx D b - cx D a)), ((cx D b - cx D a) * (cx D b - cx D a) / 2).
    split; [apply half_sq|]. intros t. unfold sq. field.
Qed.
Lemma lin_sum g D (h : heap xR) ks : (forall k, In k ks -> linear (getK h k) = true) -> exists b q, 0 <= q /\
  forall t, sumR (map (fun k => lossR (shift g D t) h (getK h k)) ks) =
            sumR (map (fun k => lossR g h (getK h k)) ks) + t * b + t * t * q.
Proof.
  induction ks as [|k ks IH]; intros H.
  - exists 0, 0. split; [lra|]. intros t. simpl. ring.
  - destruct IH as (b & q & Q & E); [intros; apply H; now right|].
    destruct (lin_one g D h (getK h k) (H k (or_introl eq_refl))) as (b' & q' & Q' & E').
    exists (b + b'), (q + q'). split; [lra|]. intros t. simpl. rewrite E, E'. ring.
Qed.

Lemma quad_deriv l b q : derivable_pt_lim (fun t => l + t * b + t * t * q) 0 b.
Proof.
  apply is_derive_Reals. auto_derive; auto. ring.
Qed.

Lemma linear_quadratic h s : valid h s -> all_con_finite h s -> linear_sketch h s ->
  exists h' g l, get_gradient s h = (h', Val (map Fin g)) /\ length g = get_n_dofs h s /\ get_loss h s = Fin l /\
    forall d, length d = get_n_dofs h s -> exists q, 0 <= q /\
      forall t, get_loss (moved h s d t) s = Fin (l + t * dotL g d + t * t * q).
Proof.
  intros V Hf Hl. pose proof (valid_nd _ _ V) as ND. pose proof (valid_cells _ _ V) as OK.
  destruct (C15_lemma h s V Hf) as (h' & g & Eg & Lg & HD).
  { intros k Hk. apply linear_nondeg, Hl, Hk. }
  exists h', g, (sumR (map (fun k => lossR (cfg_of h) h (getK h k)) (s_cons s))).
  split; [exact Eg|]. split; [exact Lg|]. split; [now apply get_loss_R|].
  intros d Ld. destruct (lin_sum (cfg_of h) (D_of (cells s) d) h (s_cons s) Hl) as (b & q & Q & E).
  exists q. split; [exact Q|].
  assert (K : forall t, get_loss (moved h s d t) s =
    Fin (sumR (map (fun k => lossR (cfg_of h) h (getK h k)) (s_cons s)) + t * b + t * t * q)).
  { intros t. destruct (moved_ok h s d t ND OK Ld) as (S & _). rewrite get_loss_R.
    - f_equal. rewrite <- E, (moved_cfg h s d t ND OK Ld). f_equal. apply map_ext_in. intros k _.
      rewrite (struct_getK _ _ _ S). now apply struct_lossR.
    - intros k Hk. rewrite (struct_getK _ _ _ S). apply moved_con_finite; auto. }
  destruct (HD d Ld) as (_ & _ & D).
  assert (B : b = dotL g d).
  { eapply uniqueness_limite; [|exact D].
    eapply (derivable_pt_lim_ext (fun t => sumR (map (fun k => lossR (cfg_of h) h (getK h k)) (s_cons s)) + t * b + t * t * q)); [|apply quad_deriv].
    intros t. now rewrite K. }
  intros t. rewrite K, B. reflexivity.
Qed.

(** ** lists *)
Lemma map2_addL a u : forall d, map2 (fun x y => x + a * y) u d = addL u (sclL a d).
Proof. induction u as [|x u IH]; intros [|y d]; simpl; auto. unfold addL, sclL in *. simpl. now rewrite IH. Qed.
Lemma map2_minus u : forall v, length u = length v -> map2 (fun x y => x + 1 * y) u (minusL v u) = v.
Proof. induction u as [|x u IH]; intros [|y v] E; simpl; auto; try discriminate. injection E as E. f_equal; [ring|]. now apply IH. Qed.
Lemma addL_addL a t u : forall d, addL (addL u (sclL a d)) (sclL t d) = addL u (sclL (a + t) d).
Proof. unfold addL, sclL. induction u as [|x u IH]; intros [|y d]; simpl; auto. rewrite IH. f_equal. ring. Qed.
Lemma quad_nonneg A B C : (forall t, 0 <= A + t * B + t * t * C) -> 0 <= C -> B * B <= 4 * A * C.
Proof.
  intros H P. destruct (Req_dec C 0) as [->|N].
  - destruct (Req_dec B 0) as [->|NB]; [lra|].
    specialize (H (- (A + 1) / B)). replace (A + - (A + 1) / B * B + _ * 0) with (-1) in H by (field; auto). lra.
  - specialize (H (- B / (2 * C))).
    replace (A + - B / (2 * C) * B + - B / (2 * C) * (- B / (2 * C)) * C) with ((4 * A * C - B * B) / (4 * C)) in H by (field; auto).
    apply (Rmult_le_compat_r (4 * C)) in H; [|lra]. unfold Rdiv in H. rewrite Rmult_assoc, Rinv_l in H by lra. lra.
Qed.
Lemma dotL_sq_nonneg u : 0 <= dotL u u.
Proof. unfold dotL. induction u as [|x u IH]; simpl; [lra|]. pose proof (half_sq x). lra. Qed.
Lemma dotL_quad u t : forall v, length u = length v ->
  dotL (map2 (fun x y => x + t * y) u v) (map2 (fun x y => x + t * y) u v) = dotL u u + t * (2 * dotL u v) + t * t * dotL v v.
Proof.
  unfold dotL. induction u as [|x u IH]; intros [|y v] E; try discriminate; simpl; [ring|].
  injection E as E. rewrite IH by auto. ring.
Qed.
Lemma dotL_cauchy u v : length u = length v -> dotL u v * dotL u v <= dotL u u * dotL v v.
Proof.
  intros E. assert (H := quad_nonneg (dotL u u) (2 * dotL u v) (dotL v v)). 
  assert (2 * dotL u v * (2 * dotL u v) <= 4 * dotL u u * dotL v v); [|lra].
  apply H; [|apply dotL_sq_nonneg]. intros t. rewrite <- dotL_quad by auto. apply dotL_sq_nonneg.
Qed.
Lemma dist2_dot u : forall v, dist2 u v = dotL (minusL u v) (minusL u v).
Proof. unfold dist2, dotL, minusL, sq. induction u as [|x u IH]; intros [|y v]; simpl; auto. now rewrite IH. Qed.
Lemma dist2_step a g : forall u v, length u = length g -> length v = length g ->
  dist2 (addL u (sclL a (negL g))) v = dist2 u v - 2 * a * dotL g (minusL u v) + a * a * dotL g g.
Proof.
  unfold dist2, dotL, minusL, addL, sclL, negL, sq. induction g as [|x g IH]; intros [|y u] [|z v] E1 E2; try discriminate; simpl; [ring|].
  injection E1 as E1. injection E2 as E2. rewrite IH by auto. ring.
Qed.
Lemma dot_neg g : forall d, dotL g (negL d) = - dotL g d.
Proof. unfold dotL, negL. induction g as [|x g IH]; intros [|y d]; simpl; try ring. rewrite IH. ring. Qed.
Lemma dot_minus_swap g : forall u v, dotL g (minusL u v) = - dotL g (minusL v u).
Proof.
  unfold dotL, minusL. induction g as [|x g IH]; intros [|y u] [|z v]; simpl; try ring. rewrite (IH u v). ring.
Qed.
Lemma minusL_length u v : length u = length v -> length (minusL u v) = length u.
Proof. intros E. unfold minusL. rewrite map2_min, E. apply Nat.min_id. Qed.

(** ** placements *)
Lemma moved_at h s d t : valid h s -> length d = get_n_dofs h s ->
  at_point h s (map Fin (map2 (fun x y => x + t * y) (map vx (get_data h s)) d)) (moved h s d t).
Proof.
  intros V Ld. destruct (moved_ok h s d t (valid_nd _ _ V) (valid_cells _ _ V) Ld) as (_ & _ & _ & h' & E).
  unfold moved. rewrite E. simpl. apply at_frame; auto. split; [eapply set_frame, E | eapply C09_set_get; eauto].
Qed.
Lemma data_length (h : heap xR) s : length (get_data h s) = get_n_dofs h s.
Proof. rewrite n_dofs_dims. unfold get_data, dims. induction (cells s) as [|c cs IH]; simpl; auto. rewrite app_length, IH. f_equal. destruct c; reflexivity. Qed.
Lemma at_length h s x (hx : heap xR) : at_point h s (map Fin x) hx -> length x = get_n_dofs h s.
Proof. intros (_ & E & _). rewrite (n_dofs_any h hx), <- data_length, E. now rewrite map_length. Qed.
Lemma at_moved h s x hx : valid h s -> at_point h s (map Fin x) hx ->
  sdeq (moved h s (minusL x (map vx (get_data h s))) 1) hx.
Proof.
  intros V Ha. pose proof (at_length _ _ _ _ Ha) as Lx.
  assert (Lm : length (map vx (get_data h s)) = length x) by (rewrite map_length, data_length; auto).
  eapply at_unique; [|exact Ha|exact V]. pose proof (moved_at h s (minusL x (map vx (get_data h s))) 1 V) as M.
  rewrite map2_minus in M by auto. apply M. rewrite minusL_length; auto.
Qed.
Lemma loss_pos h s l : all_con_finite h s -> get_loss h s = Fin l -> 0 <= l.
Proof.
  intros CF E. rewrite get_loss_R in E by auto. injection E as <-. clear CF.
  induction (s_cons s) as [|k ks IH]; simpl; [lra|]. pose proof (lossR_nonneg (cfg_of h) h (getK h k)). lra.
Qed.
Lemma struct_linear (h h' : heap xR) s : struct_eq h h' -> linear_sketch h s -> linear_sketch h' s.
Proof. intros S H k Hk. rewrite (struct_getK _ _ _ S). auto. Qed.

Section Lin.
Variables (s : sketch) (h0 : heap xR).
Hypothesis V : valid h0 s.
Hypothesis CF : all_con_finite h0 s.
Hypothesis LS : linear_sketch h0 s.
Notation ok := (okh s h0).
Lemma ok_lin h : ok h -> linear_sketch h s.
Proof. intros [[S _] _]. now apply (struct_linear h0). Qed.
Lemma ok_frame h h' : ok h -> frame s h h' -> all_finite (get_data h' s) = true -> ok h'.
Proof. intros [H _] F E. split; auto. eapply frame_trans; eauto. Qed.
Lemma ok_at h x hx : ok h -> at_point h s (FinV x) hx -> ok hx.
Proof.
  intros Ho Ha. apply at_frame in Ha as [F E]; [|now apply (ok_valid s h0 V)]. eapply ok_frame; eauto. rewrite E. apply finite_FinV.
Qed.

Lemma pt_R h a d : ok h -> vadd (get_data h s) (vscale (Fin a) (FinV d)) = FinV (addL (map vx (get_data h s)) (sclL a d)).
Proof. intros Ho. rewrite (ok_data s h0 h Ho) at 1. now rewrite vscale_R, vadd_R. Qed.

(** the quadratic function along [d] *)
Lemma along h d h1 g : ok h -> length d = get_n_dofs h s -> get_gradient s h = (h1, Val (FinV g)) ->
  exists l q, get_loss h s = Fin l /\ 0 <= q /\
    (forall t, get_loss (moved h s d t) s = Fin (l + t * dotL g d + t * t * q)) /\
    (forall a hx, at_point h s (vadd (get_data h s) (vscale (Fin a) (FinV d))) hx ->
       ok hx /\ get_loss hx s = Fin (l + a * dotL g d + a * a * q) /\
       exists h2 g2, get_gradient s hx = (h2, Val (FinV g2)) /\ dotL g2 d = dotL g d + 2 * a * q).
Proof.
  intros Ho Ld Eg. assert (Vh := ok_valid s h0 V h Ho).
  destruct (linear_quadratic h s Vh (ok_fin s h0 CF h Ho) (ok_lin h Ho)) as (h1' & g' & l & Eg' & Lg & El & Q).
  rewrite Eg in Eg'. assert (Eg2 : FinV g = FinV g') by (now injection Eg'). clear Eg'.
  assert (g' = g) as -> by (rewrite <- (map_vx_Fin g), <- (map_vx_Fin g'); unfold FinV in Eg2; congruence).
  destruct (Q d Ld) as (q & Pq & Hq). exists l, q. split; auto. split; auto. split; auto.
  assert (K : forall a hx, at_point h s (vadd (get_data h s) (vscale (Fin a) (FinV d))) hx -> get_loss hx s = Fin (l + a * dotL g d + a * a * q)).
  { intros a hx Ha. rewrite <- Hq. symmetry. apply sd_get_loss. eapply at_unique; [exact Ha| |exact Vh].
    rewrite (pt_R h a d Ho), <- map2_addL. now apply moved_at. }
  intros a hx Ha. assert (Ho' : ok hx) by (rewrite (pt_R h a d Ho) in Ha; eapply ok_at; eauto).
  split; auto. split; [auto|]. assert (Vx := ok_valid s h0 V hx Ho').
  destruct (linear_quadratic hx s Vx (ok_fin s h0 CF hx Ho') (ok_lin hx Ho')) as (h2 & g2 & l2 & Eg3 & Lg2 & El2 & Q2).
  exists h2, g2. split; [exact Eg3|]. destruct (Q2 d) as (q2 & _ & Hq2); [now rewrite (n_dofs_any hx h)|].
  assert (E : forall t, l2 + t * dotL g2 d + t * t * q2 = l + (a + t) * dotL g d + (a + t) * (a + t) * q).
  { intros t. assert (M : Fin (l2 + t * dotL g2 d + t * t * q2) = Fin (l + (a + t) * dotL g d + (a + t) * (a + t) * q)); [|now injection M].
    rewrite <- Hq2. apply K. rewrite (pt_R h _ d Ho), <- (addL_addL a t).
    pose proof (moved_at hx s d t Vx) as M. rewrite (n_dofs_any hx h) in M. specialize (M Ld).
    apply at_frame in M as [F E]; auto. rewrite (pt_R h a d Ho) in Ha. pose proof Ha as Ha'. apply at_frame in Ha as [F1 E1]; auto.
    apply at_frame; auto. split; [eapply frame_trans; eauto|]. rewrite E, E1, map2_addL. unfold FinV. now rewrite map_vx_Fin. }
  pose proof (E 0) as E0. pose proof (E 1) as E1. pose proof (E (-1)) as E2. lra.
Qed.

(** ** C69 *)
Lemma lin_gap h h1 g x hx lx : ok h -> get_gradient s h = (h1, Val (FinV g)) -> at_point h s (FinV x) hx -> get_loss hx s = Fin lx ->
  exists l, get_loss h s = Fin l /\ l + dotL g (minusL x (map vx (get_data h s))) <= lx /\
    (lx = 0 -> l = / 2 * dotL g (minusL (map vx (get_data h s)) x)).
Proof.
  intros Ho Eg Ha Ex. assert (Vh := ok_valid s h0 V h Ho). set (d := minusL x (map vx (get_data h s))).
  pose proof (at_length _ _ _ _ Ha) as Lx.
  assert (Ld : length d = get_n_dofs h s).
  { unfold d. rewrite minusL_length; auto. rewrite map_length, data_length. auto. }
  destruct (along h d h1 g Ho Ld Eg) as (l & q & El & Pq & Hm & _). exists l. split; auto.
  pose proof (at_moved _ _ _ _ Vh Ha) as S. fold d in S.
  assert (E1 : lx = l + dotL g d + q).
  { assert (E : Fin lx = Fin (l + 1 * dotL g d + 1 * 1 * q)) by (rewrite <- Hm, <- Ex; apply (sd_get_loss _ _ s S)). injection E as ->. ring. }
  split; [lra|]. intros Z. rewrite dot_minus_swap. fold d.
  assert (P : forall t, 0 <= l + t * dotL g d + t * t * q).
  { intros t. eapply loss_pos; [|apply Hm]. apply (ok_fin s h0 CF). eapply ok_at; [exact Ho|]. now apply moved_at. }
  assert (Q := quad_nonneg _ _ _ P Pq). 
  assert (q - l = 0); [|lra]. assert (dotL g d = - (l + q)) by lra. rewrite H in Q.
  assert ((q - l) * (q - l) <= 0) by lra. nra.
Qed.

(** ** the line search *)
Section Search.
Variables (h : heap xR) (d : list R) (h1 : heap xR) (g : list R) (l q : R).
Hypothesis Ho : ok h.
Hypothesis Ld : length d = get_n_dofs h s.
Let m := dotL g d.
Hypothesis Pm : m < 0.
Hypothesis Pq : 0 < q.
Hypothesis El : get_loss h s = Fin l.
Hypothesis K : forall a hx, at_point h s (vadd (get_data h s) (vscale (Fin a) (FinV d))) hx ->
       ok hx /\ get_loss hx s = Fin (l + a * dotL g d + a * a * q) /\
       exists h2 g2, get_gradient s hx = (h2, Val (FinV g2)) /\ dotL g2 d = dotL g d + 2 * a * q.
Lemma sd_iff a b : 0 < a -> sufficient_decrease h s (FinV d) (Fin m) (Fin a) b -> (b = true <-> a * q <= 9999 / 10000 * - m).
Proof.
  intros Pa (hx & Ha & <-). destruct (K a hx Ha) as (_ & -> & _). rewrite El, l14_R, !mul_R, add_R, le_true. fold m.
  split; intros H.
  - apply (Rmult_le_reg_l a); lra.
  - apply (Rmult_le_compat_l a) in H; lra.
Qed.
Lemma curv_iff a b : curvature h s (FinV d) (Fin m) (Fin a) b -> (b = true <-> - m <= 20 * (a * q)).
Proof.
  intros (hx & gg & Ha & Eg & <-). destruct (K a hx Ha) as (_ & _ & h2 & g2 & Eg2 & Ed). rewrite Eg2 in Eg. simpl in Eg.
  assert (Ev : FinV g2 = gg) by now injection Eg. subst gg. rewrite vdot_R, l91_R, mul_R. unfold fge. rewrite le_true, Ed. fold m. lra.
Qed.
Lemma trial_shape k a : trial h s (FinV d) (Fin m) k a -> exists r, a = Fin r /\
  (k = 0%nat /\ r = 1 \/ (0 < k)%nat /\ r = (/ 2) ^ k /\ 9999 / 10000 * - m < 2 * (r * q) \/
   (0 < k)%nat /\ r = (3 / 2) ^ k /\ 40 * (r * q) < 3 * - m).
Proof.
  induction 1 as [|k a Ht (r & -> & IH) Hs|k a Ht (r & -> & IH) Hs Hc].
  - rewrite l10_R. exists 1. auto.
  - destruct (trial_pos _ _ _ _ _ _ Ht) as (r' & E & Pr). injection E as <-.
    rewrite l51_R, mul_R. exists (r * / 2). split; auto. right. left. split; [lia|].
    assert (S := sd_iff r _ Pr Hs). assert (S' : 9999 / 10000 * - m < r * q) by (apply Rnot_le_lt; intros X; apply S in X; discriminate).
    split; [|lra]. destruct IH as [[-> ->]|[(_ & -> & _)|(_ & _ & E)]]; [simpl; lra|simpl; lra|lra].
  - destruct (trial_pos _ _ _ _ _ _ Ht) as (r' & E & Pr). injection E as <-.
    rewrite l151_R, mul_R. exists (r * (3 / 2)). split; auto. right. right. split; [lia|].
    assert (S := curv_iff r _ Hc). assert (S' : 20 * (r * q) < - m) by (apply Rnot_le_lt; intros X; apply S in X; discriminate).
    split; [|lra]. destruct IH as [[-> ->]|[(_ & _ & E)|(_ & -> & _)]]; [simpl; lra|lra|simpl; lra].
Qed.
Lemma pow_half_ge k : (k <= 14)%nat -> (/ 2) ^ 14 <= (/ 2) ^ k.
Proof.
  intros H. replace 14%nat with (k + (14 - k))%nat by lia. rewrite pow_add.
  assert (P : 0 < (/ 2) ^ k) by (apply pow_lt; lra).
  assert (Q : (/ 2) ^ (14 - k) <= 1) by (rewrite <- (pow1 (14 - k)); apply pow_incr; lra). nra.
Qed.
Lemma pow_grow_le k : (k <= 14)%nat -> (3 / 2) ^ k <= (3 / 2) ^ 14.
Proof. intros H. apply Rle_pow; [lra|lia]. Qed.

Lemma ls_loop_val n : forall a hc, frame s h hc -> snd (ls_loop s (get_data h s) (FinV d) (get_loss h s) (Fin m) (wolfe_c2 *f Fin m) n (Fin a) hc) <> Panic.
Proof.
  induction n as [|n IH]; intros a hc F; [discriminate|]. cbn [ls_loop]. unfold mbind at 1.
  destruct (set_data_ok s (vadd (get_data h s) (vscale (Fin a) (FinV d))) hc) as [h2 E].
  { rewrite (pt_R h a d Ho), FinV_length. rewrite (n_dofs_any hc h), <- Ld. unfold addL. rewrite map2_min. unfold sclL. rewrite !map_length, data_length, Ld. apply Nat.min_id. }
  { rewrite (pt_R h a d Ho). apply finite_FinV. }
  rewrite E. assert (Vc : valid hc s) by (eapply valid_struct; [apply (ok_valid s h0 V h Ho) | apply (frame_struct s); auto]).
  assert (F2 : frame s h h2) by (eapply frame_trans; [eauto | eapply set_frame; eauto]).
  assert (A2 : at_point h s (vadd (get_data h s) (vscale (Fin a) (FinV d))) h2).
  { apply at_frame; [apply (ok_valid s h0 V h Ho)|]. split; auto. eapply C09_set_get; eauto. }
  destruct (K a h2 A2) as (_ & _ & h3 & g3 & Eg & _). destruct (fle (get_loss h2 s) _).
  - unfold mbind. rewrite Eg. destruct (fge _ _); [discriminate|]. rewrite l151_R, mul_R. apply IH.
    eapply frame_trans; [exact F2|]. apply sd_frame_of. eapply gradient_sd; eauto.
  - unfold fhalf. rewrite l51_R, mul_R. now apply IH.
Qed.
Lemma search_lin : 
  let ok_range := 9999 / 10000 * - m * 2 ^ 14 >= q /\ - m <= 20 * ((3 / 2) ^ 14 * q) in
  (ok_range -> exists h' a, line_search_wolfe s (FinV d) (FinV g) h = (h', Val (LOk (Fin a))) /\
     - m <= 20 * (a * q) /\ a * q <= 9999 / 10000 * - m) /\
  (~ ok_range -> exists h', line_search_wolfe s (FinV d) (FinV g) h = (h', Val (LErr SearchFailed))).
Proof.
  intros rng. assert (Vh := ok_valid s h0 V h Ho).
  destruct (line_search_wolfe s (FinV d) (FinV g) h) as [h' r] eqn:E.
  assert (NP : r <> Panic).
  { intros ->. unfold line_search_wolfe in E. destruct (fge _ f0); [discriminate|]. rewrite vdot_R in E. fold m in E. unfold f1 in E. rewrite l10_R in E.
    apply (ls_loop_val ls_max_iter 1 h (frame_refl s h)). now rewrite E. }
  apply (line_search_spec h s _ _ h' r Vh) in E as [(E & _)|[_ E]].
  { rewrite vdot_R in E. fold m in E. unfold fge in E. rewrite f0_R in E. apply le_true in E. lra. }
  rewrite vdot_R in E. fold m in E. destruct r as [[a|[|]]|]; [| destruct E | | congruence]; simpl in E.
  - destruct E as (k & Hk & Ht & _ & Hs & Hc). destruct (trial_pos _ _ _ _ _ _ Ht) as (r & -> & Pr).
    assert (S := proj1 (sd_iff r _ Pr Hs) eq_refl). assert (C := proj1 (curv_iff r _ Hc) eq_refl).
    destruct (trial_shape _ _ Ht) as (r' & E & Sh). injection E as <-.
    assert (R1 : (/ 2) ^ 14 <= r /\ r <= (3 / 2) ^ 14).
    { assert (1 <= (3 / 2) ^ 14) by (apply pow_R1_Rle; lra). assert ((/ 2) ^ 14 <= 1) by (rewrite <- (pow1 14); apply pow_incr; lra).
      destruct Sh as [(_ & ->)|[(_ & -> & _)|(_ & -> & _)]]; [lra| |].
      - split; [apply pow_half_ge; lia|]. apply (Rle_trans _ 1); [|lra]. rewrite <- (pow1 k). apply pow_incr; lra.
      - split; [|apply pow_grow_le; lia]. apply (Rle_trans _ 1); [lra|]. apply pow_R1_Rle. lra. }
    destruct R1 as [R1 R2]. split.
    + intros _. exists h', r. auto.
    + intros N. exfalso. apply N. split.
      * assert ((/ 2) ^ 14 * q <= 9999 / 10000 * - m) by nra. simpl in H |- *. lra.
      * apply (Rle_trans _ _ _ C). apply Rmult_le_compat_l; [lra|]. apply Rmult_le_compat_r; lra.
  - split; [|intros _; exists h'; auto]. intros [G1 G2]. exfalso.
    destruct E as (k & a & Ek & Ht & _ & Hf). destruct (trial_pos _ _ _ _ _ _ Ht) as (r & -> & Pr).
    destruct (trial_shape _ _ Ht) as (r' & E & Sh). injection E as <-. assert (k = 14)%nat as -> by lia.
    destruct Sh as [(X & _)|[(_ & Er & Sh)|(_ & Er & Sh)]]; [discriminate| |].
    + destruct Hf as [Hf|Hf].
      * apply (sd_iff r _ Pr) in Hf. assert (~ r * q <= 9999 / 10000 * - m) by (intros X; apply Hf in X; discriminate).
        apply H. rewrite Er. simpl in G1 |- *. lra.
      * apply (curv_iff r) in Hf. assert (~ - m <= 20 * (r * q)) by (intros X; apply Hf in X; discriminate). lra.
    + destruct Hf as [Hf|Hf].
      * apply (sd_iff r _ Pr) in Hf. assert (~ r * q <= 9999 / 10000 * - m) by (intros X; apply Hf in X; discriminate). lra.
      * apply (curv_iff r) in Hf. assert (~ - m <= 20 * (r * q)) by (intros X; apply Hf in X; discriminate).
        apply H. rewrite Er. exact G2.
Qed.
End Search.
End Lin.
