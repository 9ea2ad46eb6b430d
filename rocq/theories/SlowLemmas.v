(** * How far Gauss-Newton and Levenberg-Marquardt can get on linear sketches (C79, C80) *)
From Coq Require Import List ZArith NArith Arith Bool Lia Sorted Reals Lra.
From Coquelicot Require Import Coquelicot.
From Verif Require Import Arith Vec Prim Cons Sketch Solve Api Spec SolverSpec ArithR ExactSpec MotionSpec LinearSpec
  HeapLemmas SolveLemmas WfLemmas DataLemmas SpecLemmas ExactLemmas DerivLemmas GradLemmas PureLemmas LossLemmas
  SearchLemmas StepLemmas RMat NlsMat ExactRun RestLemmas ConserveLemmas MotionLemmas NlsDescent
  LinearLemmas LinearForms GraphLemmas RateLemmas.
Import ListNotations.
Local Open Scope R_scope.

Lemma sumR_plus {T} (f g : T -> R) l : sumR (map (fun k => f k + g k) l) = sumR (map f l) + sumR (map g l).
Proof. induction l as [|k l IH]; simpl; [ring|]. rewrite IH. ring. Qed.
Lemma sumR_scal {T} c (f : T -> R) l : sumR (map (fun k => c * f k) l) = c * sumR (map f l).
Proof. induction l as [|k l IH]; simpl; [ring|]. rewrite IH. ring. Qed.
Lemma fourth l b c a : 0 <= l -> 0 <= a -> b * b <= 4 * l * c ->
  (4 * a ^ 3 - 3 * a ^ 4) * sq l + 2 * a ^ 3 * (l * b) <= sq (l + b + c).
Proof.
  intros Pl Pa D. unfold sq.
  assert (A1 : 2 * (a * a * l) * (l + b + c) - a * a * l * (a * a * l) <= (l + b + c) * (l + b + c)) by (pose proof (Rle_0_sqr (l + b + c - a * a * l)) as Q; unfold Rsqr in Q; lra).
  assert (A2 : (l + b / 2) * (l + b / 2) <= l * (l + b + c)) by lra.
  assert (A3 : 2 * (a * l) * (l + b / 2) - a * l * (a * l) <= (l + b / 2) * (l + b / 2)) by (pose proof (Rle_0_sqr (l + b / 2 - a * l)) as Q; unfold Rsqr in Q; lra).
  assert (A4 : a * a * (2 * (a * l) * (l + b / 2) - a * l * (a * l)) <= a * a * (l * (l + b + c))).
  { apply Rmult_le_compat_l; [nra|lra]. }
  replace ((4 * a ^ 3 - 3 * a ^ 4) * (l * l) + 2 * a ^ 3 * (l * b)) with
    (2 * (a * a * (2 * (a * l) * (l + b / 2) - a * l * (a * l))) - a * a * l * (a * a * l)) by field.
  lra.
Qed.

Section Here.
Variables (s : sketch) (h : heap xR).
Hypothesis V : valid h s.
Hypothesis Fd : finite_data h s.
Hypothesis CF : all_con_finite h s.
Hypothesis LS : linear_sketch h s.
Let n := get_n_dofs h s.
Let w := map vx (get_loss_per_constraint h s).
Let x := map vx (get_data h s).
Lemma here_nd : forall k, In k (s_cons s) -> nondegenerate (cfg_of h) h (getK h k).
Proof. intros k Hk. apply linear_nondeg, LS, Hk. Qed.
Definition slopeK d k := pairing h (D_of (cells s) d) (fin_rows h (getK h k)).
Definition curvK d k := (energy (xedges h (getK h k)) (cx (D_of (cells s) d)) + energy (yedges h (getK h k)) (cy (D_of (cells s) d))) / 2.
Definition lossK (h : heap xR) k := vx (loss_value h (getK h k)).
Lemma lossK_nonneg h' k : con_finite h' (getK h' k) -> 0 <= lossK h' k.
Proof. intros C. unfold lossK. rewrite loss_R by auto. apply lossR_nonneg. Qed.
Lemma curvK_nonneg d k : 0 <= curvK d k.
Proof. unfold curvK. pose proof (energy_nonneg (xedges h (getK h k)) (cx (D_of (cells s) d))). pose proof (energy_nonneg (yedges h (getK h k)) (cy (D_of (cells s) d))). lra. Qed.
Lemma con_quad d k : length d = n -> In k (s_cons s) -> forall t,
  lossK (moved h s d t) k = lossK h k + t * slopeK d k + t * t * curvK d k.
Proof.
  intros Ld Hk. assert (N1 := valid_nd _ _ V). assert (N2 := valid_cells _ _ V).
  destruct (lin_one_q (cfg_of h) (D_of (cells s) d) h (getK h k) (LS k Hk)) as (b & B).
  assert (Q : forall t, lossK (moved h s d t) k = lossK h k + t * b + t * t * curvK d k).
  { intros t. unfold lossK. destruct (moved_ok h s d t N1 N2 Ld) as (S & _). rewrite (struct_getK _ _ _ S).
    rewrite (loss_R h) by auto. rewrite loss_R by (apply moved_con_finite; auto). cbn [vx].
    rewrite (moved_cfg h s d t N1 N2 Ld), (struct_lossR _ _ _ _ S). apply B. }
  assert (E : b = slopeK d k); [|now rewrite <- E].
  assert (D1 := con_loss_deriv h s d k N1 N2 Ld (CF k Hk) (here_nd k Hk)).
  assert (D2 : is_derive (fun t => vx (loss_value (moved h s d t) (getK h k))) 0 b).
  { apply (is_derive_ext (fun t => lossK h k + t * b + t * t * curvK d k)).
    - intros t. req. rewrite <- Q. unfold lossK. destruct (moved_ok h s d t N1 N2 Ld) as (S & _). now rewrite (struct_getK _ _ _ S).
    - auto_derive; auto. req. ring. }
  apply is_derive_unique in D1. apply is_derive_unique in D2. unfold slopeK. congruence.
Qed.
Lemma con_disc d k : length d = n -> In k (s_cons s) -> slopeK d k * slopeK d k <= 4 * lossK h k * curvK d k.
Proof.
  intros Ld Hk. apply quad_nonneg; [|apply curvK_nonneg]. intros t. rewrite <- con_quad by auto.
  apply lossK_nonneg. assert (N1 := valid_nd _ _ V). assert (N2 := valid_cells _ _ V).
  destruct (moved_ok h s d t N1 N2 Ld) as (S & _). rewrite (struct_getK _ _ _ S). apply moved_con_finite; auto.
Qed.
Definition squares (h : heap xR) := sumR (map (fun k => sq (lossK h k)) (s_cons s)).
Definition total (h : heap xR) := sumR (map (fun k => lossK h k) (s_cons s)).
Lemma squares_half h' : half_squares h' s = squares h' / 2.
Proof. unfold half_squares, squares, lossK, get_loss_per_constraint. now rewrite map_map. Qed.
Lemma squares_w : squares h = dotL w w.
Proof. unfold squares, w, get_loss_per_constraint. rewrite map_map, <- dot_map2_sum. reflexivity. Qed.
Lemma slope_sum d Jr : mulL Jr d = map (fun k => pairing h (D_of (cells s) d) (fin_rows h (getK h k))) (s_cons s) ->
  dotL w (mulL Jr d) = sumR (map (fun k => lossK h k * slopeK d k) (s_cons s)).
Proof. intros ->. unfold w, get_loss_per_constraint. now rewrite map_map, dot_map2_sum. Qed.
(** squares after a step *)
Lemma squares_step d t a : length d = n -> 0 <= a ->
  (4 * a ^ 3 - 3 * a ^ 4) * squares h + 2 * a ^ 3 * (t * sumR (map (fun k => lossK h k * slopeK d k) (s_cons s))) <= squares (moved h s d t).
Proof.
  intros Ld Pa. unfold squares. rewrite <- !sumR_scal, <- sumR_plus. apply sum_le. intros k Hk. rewrite con_quad by auto.
  replace (2 * a ^ 3 * (t * (lossK h k * slopeK d k))) with (2 * a ^ 3 * (lossK h k * (t * slopeK d k))) by ring.
  apply fourth; auto.
  - apply lossK_nonneg. auto.
  - pose proof (con_disc d k Ld Hk) as D. assert (0 <= t * t) by nra.
    assert (t * t * (slopeK d k * slopeK d k) <= t * t * (4 * lossK h k * curvK d k)) by (apply Rmult_le_compat_l; auto). lra.
Qed.
Lemma pts_le d : length d = n ->
  sumR (map (fun p : nat => sq (cx (D_of (cells s) d) p)) (points s)) + sumR (map (fun p : nat => sq (cy (D_of (cells s) d) p)) (points s)) <= dotL d d.
Proof.
  intros Ld. assert (nd := valid_nd _ _ V). assert (Ld' : length d = dims (cells s)) by (rewrite Ld; apply n_dofs_dims).
  destruct (D_off s d) as [Ox Oy]. set (d' := pv s (cx (D_of (cells s) d)) (cy (D_of (cells s) d))).
  assert (Lp : length d' = dims (cells s)) by apply pv_length.
  set (S := _ + _).
  assert (E1 : dotL d d' = S) by (unfold d'; rewrite pv_dot by auto; reflexivity).
  assert (E2 : dotL d' d' = S).
  { unfold d' at 2. rewrite pv_dot by auto. unfold S. f_equal; f_equal; apply map_ext; intros p; unfold sq; f_equal; apply (D_pv s _ _ Ox Oy). }
  assert (C := dotL_cauchy d d'). rewrite E1, E2 in C. specialize (C ltac:(congruence)).
  assert (0 <= S) by (unfold S; pose proof (sum_sq_pos (cx (D_of (cells s) d)) (points s)); pose proof (sum_sq_pos (cy (D_of (cells s) d)) (points s)); lra).
  pose proof (dotL_sq_nonneg d). destruct (Req_dec S 0) as [->|]; [auto|]. apply (Rmult_le_reg_r S); lra.
Qed.
Lemma curvK_le d k : length d = n -> curvK d k <= dotL d d.
Proof.
  intros Ld. pose proof (pts_le d Ld) as B. destruct (D_off s d) as [Ox Oy]. pose proof (points_nodup s (valid_nd _ _ V)) as NV.
  set (Sx := sumR (map (fun p : nat => sq (cx (D_of (cells s) d) p)) (points s))) in *. set (Sy := sumR (map (fun p : nat => sq (cy (D_of (cells s) d) p)) (points s))) in *.
  assert (Px : 0 <= Sx) by apply sum_sq_pos. assert (Py : 0 <= Sy) by apply sum_sq_pos.
  assert (A : forall E, (length E <= 1)%nat -> energy E (cx (D_of (cells s) d)) <= 2 * Sx).
  { intros [|e [|]] L; simpl in L; try lia; unfold energy, sumR; cbn [map fold_right]; [lra|].
    pose proof (edge_le (points s) _ e NV Ox) as Q. fold Sx in Q. lra. }
  assert (A2 : forall E, (length E <= 1)%nat -> energy E (cy (D_of (cells s) d)) <= 2 * Sy).
  { intros [|e [|]] L; simpl in L; try lia; unfold energy, sumR; cbn [map fold_right]; [lra|].
    pose proof (edge_le (points s) _ e NV Oy) as Q. fold Sy in Q. lra. }
  assert (A' : energy (xedges h (getK h k)) (cx (D_of (cells s) d)) <= 2 * Sx) by (apply A; destruct (getK h k); simpl; lia).
  assert (B' : energy (yedges h (getK h k)) (cy (D_of (cells s) d)) <= 2 * Sy) by (apply A2; destruct (getK h k); simpl; lia).
  unfold curvK. lra.
Qed.
Lemma jz_le z Jr : length z = n -> mulL Jr z = map (fun k => pairing h (D_of (cells s) z) (fin_rows h (getK h k))) (s_cons s) ->
  dotL (mulL Jr z) (mulL Jr z) <= 4 * total h * dotL z z.
Proof.
  intros Lz ->. rewrite <- dot_map2_sum. unfold total. 
  replace (4 * sumR (map (fun k => lossK h k) (s_cons s)) * dotL z z) with (4 * dotL z z * sumR (map (fun k => lossK h k) (s_cons s))) by ring.
  rewrite <- sumR_scal. apply sum_le. intros k Hk. pose proof (con_disc z k Lz Hk) as D. fold (slopeK z k).
  pose proof (curvK_le z k Lz). pose proof (lossK_nonneg h k (CF k Hk)).
  assert (lossK h k * curvK z k <= lossK h k * dotL z z) by (apply Rmult_le_compat_l; auto). lra.
Qed.
Lemma total_nonneg : 0 <= total h.
Proof. unfold total. rewrite <- (Rmult_0_r (INR (length (s_cons s)))), <- sum_const. apply sum_le. intros k Hk. now apply lossK_nonneg, CF. Qed.
Lemma squares_nonneg h' : 0 <= squares h'.
Proof. unfold squares. rewrite <- (Rmult_0_r (INR (length (s_cons s)))), <- sum_const. apply sum_le. intros k Hk. apply sq_nonneg. Qed.

(** ** one pass of the loop *)
Variable pinv : mat xR -> xR -> pinv_res (mat xR).
Hypothesis PI : exact_pinv pinv.
Variables (normal : nat -> mat xR -> mat xR) (b : R).
Hypothesis Hb : 0 <= b.
Hypothesis Hn : forall Jr, rows n Jr -> exists N, normal n (FinM Jr) = FinM N /\ symmetric n N /\
     forall q, truncated_inverse n N q -> truncated_inverse n (normL b n Jr) q.
Definition slow st (h2 : heap xR) := exists q, 0 <= q /\ q <= squares h /\ b * q <= 4 * total h * squares h /\
  forall a, 0 <= a -> (4 * a ^ 3 - 3 * a ^ 4) * squares h - 2 * a ^ 3 * (st * q) <= squares h2.
Lemma one_pass eps st : exists h1 jac, get_jacobian s h = (h1, Val jac) /\ sdeq h h1 /\
  match nls_step pinv (get_data h s) (get_loss_per_constraint h s) jac (normal (length (get_data h s)) jac) eps (Fin st) with
  | PInv y => exists h2, set_data s y h1 = (h2, Val tt) /\ slow st h2
  | _ => True
  end.
Proof.
  destruct (jac_here s h V CF here_nd) as (h1 & Jr & EJ & S1 & RJ & LJ & PJ). change (length Jr = length w) in LJ.
  exists h1, (FinM Jr). split; [exact EJ|]. split; [exact S1|].
  assert (Lx : length x = n) by (unfold x; rewrite map_length, get_data_length; reflexivity).
  destruct (Hn Jr RJ) as (N & EN & SN & TN).
  assert (Ho := okh_refl s h V Fd).
  assert (Ex : get_data h s = FinV x) by exact (ok_data s h h Ho).
  assert (Ew : get_loss_per_constraint h s = FinV w) by exact (losses_R s h CF h Ho).
  rewrite Ex, Ew. destruct (nls_step _ _ _ _ _ _ _) as [y| |] eqn:Es; auto.
  destruct (step_R pinv PI x w Jr normal N eps st y) as (q & T & ->); try rewrite Lx; auto.
  rewrite Lx in *. apply TN in T. set (p := mulL q (mulL (trL n Jr) w)) in *.
  assert (Lp : length p = n) by (unfold p; rewrite mulL_length; apply T).
  destruct (q_descent n Jr RJ b q T w Hb (eq_sym LJ)) as [D1 _]. fold p in D1.
  rewrite sub_neg.
  assert (Ln : length (negL p) = n) by (rewrite negL_length; exact Lp).
  destruct (set_data_ok s (FinV (addL x (sclL st (negL p)))) h1) as [h2 E2].
  { rewrite FinV_length, addL_length; rewrite ?sclL_length, Lx; auto. unfold n. symmetry. apply n_dofs_any. }
  { apply finite_FinV. }
  exists h2. split; [exact E2|].
  destruct (moved_back s h V (negL p) st h1 h2 Ln S1 E2) as [_ Eh]. rewrite !squares_half in Eh.
  assert (Es2 : squares h2 = squares (moved h s (negL p) st)) by lra. clear Eh.
  set (Q := dotL w (mulL Jr p)) in *. assert (Nn := dot_self_nonneg (mulL Jr p)). assert (Np := dot_self_nonneg p).
  assert (PQ : 0 <= Q) by (rewrite D1; nra).
  exists Q. split; [exact PQ|].
  assert (LJp : length w = length (mulL Jr p)) by (rewrite mulL_length; auto).
  assert (Lt : length (mulL (trL n Jr) w) = n) by (rewrite mulL_length; apply trL_length).
  split.
  { pose proof (dotL_cauchy w (mulL Jr p) LJp) as C. fold Q in C. rewrite squares_w.
    destruct (Req_dec Q 0) as [->|NQ]; [apply dot_self_nonneg|]. apply (Rmult_le_reg_r Q); [lra|].
    assert (dotL w w * dotL (mulL Jr p) (mulL Jr p) <= dotL w w * Q) by (apply Rmult_le_compat_l; [apply dot_self_nonneg|nra]). lra. }
  split.
  { set (z := mulL (trL n Jr) w) in *.
    assert (Ez : dotL p z = Q). { unfold Q, z. rewrite (adjoint n p Lp) by auto. apply dot_comm. }
    assert (Bz : b * Q <= dotL z z).
    { pose proof (dotL_cauchy p z ltac:(congruence)) as C. rewrite Ez in C.
      destruct (Req_dec Q 0) as [->|NQ]; [rewrite Rmult_0_r; apply dot_self_nonneg|]. apply (Rmult_le_reg_r Q); [lra|].
      assert (Pz := dot_self_nonneg z).
      assert (b * (Q * Q) <= b * (dotL p p * dotL z z)) by (apply Rmult_le_compat_l; auto).
      assert (b * dotL p p * dotL z z <= Q * dotL z z) by (apply Rmult_le_compat_r; lra). lra. }
    assert (Bq : dotL z z <= 4 * total h * squares h); [|lra].
    assert (Ezz : dotL z z = dotL w (mulL Jr z)). { unfold z at 2. rewrite (adjoint n z Lt) by auto. apply dot_comm. }
    pose proof (dotL_cauchy w (mulL Jr z) ltac:(rewrite mulL_length; auto)) as C. rewrite <- Ezz in C.
    pose proof (jz_le z Jr Lt (PJ z Lt)) as Bj. rewrite squares_w.
    assert (Pw := dot_self_nonneg w). assert (Pz := dot_self_nonneg z). assert (Pt := total_nonneg).
    assert (M : dotL w w * dotL (mulL Jr z) (mulL Jr z) <= dotL w w * (4 * total h * dotL z z)) by (apply Rmult_le_compat_l; auto).
    destruct (Req_dec (dotL z z) 0) as [->|Nz]; [apply Rmult_le_pos; lra|]. apply (Rmult_le_reg_r (dotL z z)); lra. }
  intros a Pa. rewrite Es2. pose proof (squares_step (negL p) st a Ln Pa) as B.
  rewrite <- (slope_sum (negL p) Jr) in B by (apply PJ; exact Ln).
  assert (En : dotL w (mulL Jr (negL p)) = - Q).
  { unfold Q. rewrite <- dot_neg_r. f_equal. unfold mulL, negL. rewrite map_map. apply map_ext. intros r. apply dot_neg_r. }
  rewrite En in B. lra.
Qed.
(** the bound of one pass *)
Lemma slow_rate st h2 th : slow st h2 -> 0 <= st -> (forall q, q <= squares h -> b * q <= 4 * total h * squares h -> q <= th * squares h) ->
  0 <= 1 - st * th / 2 -> (1 - st * th / 2) ^ 4 * squares h <= squares h2.
Proof.
  intros (q & Pq & Q1 & Q2 & B) Ps Ht Pa. specialize (Ht q Q1 Q2). set (a := 1 - st * th / 2) in *. specialize (B a Pa).
  assert (Pa3 : 0 <= a ^ 3) by (apply pow_le; auto).
  assert (M : a ^ 3 * (st * q) <= a ^ 3 * (st * (th * squares h))) by (apply Rmult_le_compat_l; auto; apply Rmult_le_compat_l; auto).
  assert (E : 4 * (a ^ 3 * squares h) - 2 * (a ^ 3 * (st * (th * squares h))) = 4 * a ^ 4 * squares h).
  { assert (st * th = 2 * (1 - a)) by (unfold a; field). replace (st * (th * squares h)) with (st * th * squares h) by ring. rewrite H. ring. }
  lra.
Qed.
End Here.

(** ** the loop *)
Section Loop.
Variables (s : sketch) (h0 : heap xR).
Hypothesis V : valid h0 s.
Hypothesis FD : finite_data h0 s.
Hypothesis CF : all_con_finite h0 s.
Hypothesis LS : linear_sketch h0 s.
Variable pinv : mat xR -> xR -> pinv_res (mat xR).
Hypothesis PI : exact_pinv pinv.
Variables (normal : nat -> mat xR -> mat xR) (b : R).
Hypothesis Hb : 0 <= b.
Hypothesis Hn : forall n Jr, rows n Jr -> exists N, normal n (FinM Jr) = FinM N /\ symmetric n N /\
     forall q, truncated_inverse n N q -> truncated_inverse n (normL b n Jr) q.
Variables (ml eps : xR) (st : R).
Inductive passes : nat -> heap xR -> heap xR -> Prop :=
| P0 h h' : sdeq h h' -> passes 0 h h'
| PS k h h2 h' : slow s h b st h2 -> okh s h0 h2 -> passes k h2 h' -> passes (S k) h h'.
Lemma loss_total h : okh s h0 h -> get_loss h s = Fin (total s h) /\ vsum (get_loss_per_constraint h s) = Fin (total s h).
Proof.
  intros Ho. pose proof (losses_R s h0 CF h Ho) as E. split.
  - rewrite get_loss_R by (apply (ok_fin s h0 CF); auto). f_equal. unfold total, lossK. f_equal. apply map_ext_in. intros k Hk.
    rewrite loss_R by (apply (ok_fin s h0 CF); auto). reflexivity.
  - rewrite E, vsum_R. f_equal. unfold total, lossK, get_loss_per_constraint. now rewrite map_map.
Qed.
Lemma loop_passes k : forall it l h h' r, okh s h0 h -> nls_loop pinv s normal ml eps (Fin st) k it l h = (h', r) ->
  exists j, (j <= k)%nat /\ passes j h h' /\
    forall i, r = Val (SOk i) -> i = (it + j)%nat /\
     (j = k \/ (j = O /\ fgt l ml = false) \/ exists j' hp, j = S j' /\ passes j' h hp /\ okh s h0 hp /\ fgt (Fin (total s hp)) ml = false).
Proof.
  induction k as [|k IH]; intros it l h h' r Ho; cbn [nls_loop].
  - intros E. injection E as <- <-. exists O. split; auto. split; [constructor; apply LossLemmas.sd_refl|]. intros i E. injection E as <-. split; [lia|auto].
  - destruct (fgt l ml) eqn:El; cbn [negb].
    2:{ intros E. injection E as <- <-. exists O. split; [lia|]. split; [constructor; apply LossLemmas.sd_refl|]. intros i E. injection E as <-. split; [lia|auto]. }
    destruct (ok_sub s h0 V CF LS h Ho) as (Vh & Fh & Ch & Lh).
    destruct (one_pass s h Vh Fh Ch Lh pinv PI normal b Hb (Hn _) eps st) as (h1 & jac & EJ & S1 & M).
    unfold mbind at 1. rewrite EJ. destruct (nls_step _ _ _ _ _ _ _) as [y| |].
    2:{ intros E. injection E as <- <-. exists O. split; [lia|]. split; [now constructor|]. intros i E. discriminate E. }
    2:{ intros E. injection E as <- <-. exists O. split; [lia|]. split; [now constructor|]. intros i E. discriminate E. }
    destruct M as (h2 & E2 & Sl). unfold mbind. rewrite E2. intros E.
    assert (Ho1 := ok_sd s h0 _ _ S1 Ho). destruct (ok_set s h0 V _ _ _ (proj1 Ho1) E2) as [Ho2 _].
    destruct (IH _ _ _ _ _ Ho2 E) as (j & Lj & Pj & R). exists (S j). split; [lia|]. split; [econstructor; eauto|].
    intros i Ei. destruct (R i Ei) as [-> R']. split; [lia|]. destruct R' as [->|[[-> Q]|(j' & hp & -> & Pj' & Hp & Q)]]; [auto| |].
    + right. right. exists O, h. split; auto. split; [constructor; apply LossLemmas.sd_refl|]. split; auto. now rewrite (proj2 (loss_total h Ho)) in Q.
    + right. right. exists (S j'), hp. split; auto. split; [econstructor; eauto|]. auto.
Qed.
Lemma sd_squares h h' : sdeq h h' -> squares s h' = squares s h.
Proof. intros S. unfold squares, lossK. f_equal. apply map_ext. intros k. now rewrite (struct_getK _ _ _ (proj1 S)), (sd_loss _ _ _ S). Qed.
(** no pass shrinks the sum of squares by more than (1 - step/2)^4 *)
Lemma passes_rate k h h' : 0 <= st <= 2 -> passes k h h' -> ((1 - st / 2) ^ 4) ^ k * squares s h <= squares s h'.
Proof.
  intros Hs P. induction P as [h h' S|k h h2 h' Sl Ho P IH]; [rewrite (sd_squares _ _ S); simpl; lra|].
  pose proof (slow_rate s h b st h2 1 Sl (proj1 Hs)) as R. rewrite Rmult_1_r in R.
  specialize (R ltac:(intros q Q _; lra) ltac:(lra)).
  assert (0 <= ((1 - st / 2) ^ 4) ^ k) by (apply pow_le, pow_le; lra).
  cbn [pow] in *. eapply Rle_trans; [|exact IH]. rewrite (Rmult_comm _ (_ ^ k)), Rmult_assoc. apply Rmult_le_compat_l; auto.
Qed.
Lemma passes_okh k h h' : okh s h0 h -> passes k h h' -> okh s h0 h'.
Proof. intros Ho P. induction P as [h h' S|k h h2 h' Sl Ho2 P IH]; [now apply (ok_sd s h0 _ _ S)|auto]. Qed.
Notation m := (INR (length (s_cons s))).
Lemma total_le h : okh s h0 h -> total s h <= sqrt m * sqrt (squares s h).
Proof.
  intros Ho. rewrite <- sqrt_mult; [|apply pos_INR|apply squares_nonneg].
  assert (P : 0 <= total s h) by (apply total_nonneg; apply (ok_fin s h0 CF); auto).
  rewrite <- (sqrt_square (total s h)) by auto. apply sqrt_le_1_alt.
  pose proof (dotL_cauchy (map (fun k => lossK h k) (s_cons s)) (map (fun _ => 1) (s_cons s)) ltac:(now rewrite !map_length)) as C.
  rewrite <- !dot_map2_sum in C. unfold total, squares.
  rewrite (map_ext (fun k => lossK h k * 1) (fun k => lossK h k)) in C by (intros; ring).
  rewrite (map_ext (fun k : loc => 1 * 1) (fun _ => 1)) in C by (intros; ring). rewrite sum_const in C. unfold sq. lra.
Qed.
Lemma squares_le h : okh s h0 h -> sqrt (squares s h) <= total s h.
Proof.
  intros Ho. assert (P : 0 <= total s h) by (apply total_nonneg; apply (ok_fin s h0 CF); auto).
  rewrite <- (sqrt_square (total s h)) by auto. apply sqrt_le_1_alt. unfold squares, total.
  assert (F : forall k, In k (s_cons s) -> 0 <= lossK h k) by (intros k Hk; apply lossK_nonneg, (ok_fin s h0 CF); auto).
  clear -F. induction (s_cons s) as [|k ks IH]; simpl; [lra|]. specialize (IH (fun k Hk => F k (or_intror Hk))).
  assert (0 <= sumR (map (fun k => lossK h k) ks)).
  { rewrite <- (Rmult_0_r (INR (length ks))), <- sum_const. apply sum_le. intros; apply F; now right. }
  pose proof (F k (or_introl eq_refl)). unfold sq at 1. assert (0 <= lossK h k * sumR (map (fun k => lossK h k) ks)) by (apply Rmult_le_pos; auto). lra.
Qed.
(** damping slows the descent down further near a solution *)
Lemma inv_step u v a c : 0 < u -> 0 < a <= 1 -> a * a * u <= v -> (1 - a * a) <= c * (a * a) * u -> 0 < v /\ / v <= / u + c.
Proof.
  intros Pu Pa H C. assert (Pa2 : 0 < a * a) by nra. assert (Pv : 0 < v) by (assert (0 < a * a * u) by nra; lra). split; auto.
  apply (Rle_trans _ (/ (a * a * u))); [apply Rinv_le_contravar; [nra|auto]|].
  apply (Rmult_le_reg_l (a * a * u)); [nra|]. rewrite Rinv_r by nra.
  rewrite Rmult_plus_distr_l. replace (a * a * u * / u) with (a * a) by (field; lra). lra.
Qed.
Lemma floor_pass h h2 : okh s h0 h -> 0 < b -> 0 <= st < 2 -> 0 < squares s h -> slow s h b st h2 ->
  0 < sqrt (squares s h2) /\ / sqrt (squares s h2) <= / sqrt (squares s h) + 4 * st * sqrt m / (b * (1 - st / 2) ^ 2).
Proof.
  intros Ho Pb Hs Pq Sl. set (L := total s h). set (th := Rmin 1 (4 * L / b)).
  assert (PL : 0 <= L) by (apply total_nonneg; apply (ok_fin s h0 CF); auto).
  assert (PLb : 0 <= 4 * L / b) by (apply Rmult_le_pos; [lra|left; now apply Rinv_0_lt_compat]).
  assert (T0 : 0 <= th) by (unfold th; apply Rmin_glb; lra).
  assert (T1 : th <= 1) by apply Rmin_l. assert (T2 : th <= 4 * L / b) by apply Rmin_r.
  assert (B1 : 0 <= st * th <= st) by (split; [apply Rmult_le_pos; lra|]; rewrite <- (Rmult_1_r st) at 2; apply Rmult_le_compat_l; lra).
  assert (R := slow_rate s h b st h2 th Sl (proj1 Hs)).
  assert (R' : (1 - st * th / 2) ^ 4 * squares s h <= squares s h2).
  { apply R; [|lra]. intros q Q1 Q2. unfold th. destruct (Rle_dec 1 (4 * L / b)) as [c|c].
    - rewrite Rmin_left by auto. lra.
    - rewrite Rmin_right by lra. apply (Rmult_le_reg_l b); auto. replace (b * (4 * L / b * squares s h)) with (4 * L * squares s h) by (field; lra). exact Q2. }
  clear R. set (a := 1 - st * th / 2) in *. assert (Pa : 1 - st / 2 <= a <= 1) by (unfold a; lra).
  assert (Pu : 0 < sqrt (squares s h)) by now apply sqrt_lt_R0.
  apply (inv_step _ _ a); auto; [lra| |].
  - rewrite <- (sqrt_square (a * a)) by nra. rewrite <- sqrt_mult by (try nra; lra). apply sqrt_le_1_alt. replace (a * a * (a * a)) with (a ^ 4) by ring. exact R'.
  - set (a0 := 1 - st / 2) in *. assert (P0 : 0 < a0) by (unfold a0; lra).
    assert (TL := total_le h Ho). fold L in TL. set (u := sqrt (squares s h)) in *.
    assert (Pm := sqrt_pos m).
    assert (E1 : 1 - a * a <= st * th) by (unfold a; nra).
    assert (E2 : st * th <= st * (4 * (sqrt m * u) / b)).
    { apply Rmult_le_compat_l; [lra|]. eapply Rle_trans; [exact T2|]. unfold Rdiv. apply Rmult_le_compat_r; [left; now apply Rinv_0_lt_compat|lra]. }
    eapply Rle_trans; [exact E1|]. eapply Rle_trans; [exact E2|].
    replace (4 * st * sqrt m / (b * a0 ^ 2) * (a * a) * u) with (st * (4 * (sqrt m * u) / b) * ((a * a) / (a0 * a0))) by (field; lra).
    rewrite <- (Rmult_1_r (st * (4 * (sqrt m * u) / b))) at 1. apply Rmult_le_compat_l.
    + apply Rmult_le_pos; [lra|]. apply Rmult_le_pos; [|left; now apply Rinv_0_lt_compat]. assert (0 <= sqrt m * u) by (apply Rmult_le_pos; lra). lra.
    + apply (Rmult_le_reg_r (a0 * a0)); [nra|]. unfold Rdiv. rewrite Rmult_assoc, Rinv_l by nra. nra.
Qed.
Lemma passes_floor k h h' : okh s h0 h -> 0 < b -> 0 <= st < 2 -> 0 < squares s h -> passes k h h' ->
  0 < sqrt (squares s h') /\ / sqrt (squares s h') <= / sqrt (squares s h) + INR k * (4 * st * sqrt m / (b * (1 - st / 2) ^ 2)).
Proof.
  intros Ho Pb Hs Pq P. set (c := 4 * st * sqrt m / (b * (1 - st / 2) ^ 2)). induction P as [h h' S|k h h2 h' Sl Ho2 P IH].
  - rewrite (sd_squares _ _ S). split; [now apply sqrt_lt_R0|]. simpl. lra.
  - destruct (floor_pass h h2 Ho Pb Hs Pq Sl) as [A1 A2]. fold c in A2.
    assert (0 < squares s h2) by (apply sqrt_lt_0_alt; now rewrite sqrt_0).
    destruct (IH Ho2 H) as [B1 B2]. split; auto. rewrite S_INR. lra.
Qed.
(** with a pseudo-inverse that never fails the run returns Ok *)
Lemma loop_ok k : (forall n a eps, symmetric n a -> exists Q, pinv (map (map Fin) a) eps = PInv Q) ->
  forall it l h, okh s h0 h -> exists h' i, nls_loop pinv s normal ml eps (Fin st) k it l h = (h', Val (SOk i)).
Proof.
  intros Tot. induction k as [|k IH]; intros it l h Ho; cbn [nls_loop]; [eexists _, _; reflexivity|].
  destruct (negb _); [eexists _, _; reflexivity|].
  destruct (ok_sub s h0 V CF LS h Ho) as (Vh & Fh & Ch & Lh).
  destruct (one_pass s h Vh Fh Ch Lh pinv PI normal b Hb (Hn _) eps st) as (h1 & jac & EJ & S1 & M).
  unfold mbind at 1. rewrite EJ. destruct (nls_step _ _ _ _ _ _ _) as [y| |] eqn:Es.
  - destruct M as (h2 & E2 & _). unfold mbind. rewrite E2.
    assert (Ho1 := ok_sd s h0 _ _ S1 Ho). destruct (ok_set s h0 V _ _ _ (proj1 Ho1) E2) as [Ho2 _]. now apply IH.
  - exfalso. revert Es. destruct (jac_here s h Vh Ch (here_nd s h Lh)) as (h1' & Jr & EJ' & _ & RJ & _). rewrite EJ in EJ'.
    assert (jac = FinM Jr) as -> by congruence. unfold nls_step. rewrite get_data_length.
    destruct (Hn (get_n_dofs h s) Jr RJ) as (N & -> & SN & _). destruct (Tot _ N eps SN) as (Q & E). change (FinM N) with (map (map Fin) N). rewrite E. discriminate.
  - exfalso. revert Es. destruct (jac_here s h Vh Ch (here_nd s h Lh)) as (h1' & Jr & EJ' & _ & RJ & _). rewrite EJ in EJ'.
    assert (jac = FinM Jr) as -> by congruence. unfold nls_step. rewrite get_data_length.
    destruct (Hn (get_n_dofs h s) Jr RJ) as (N & -> & SN & _). destruct (Tot _ N eps SN) as (Q & E). change (FinM N) with (map (map Fin) N). rewrite E. discriminate.
Qed.
End Loop.
