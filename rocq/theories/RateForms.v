(** * Gradient descent on linear sketches: when the search succeeds, and how fast the loss falls (C78) *)
From Coq Require Import List ZArith NArith Arith Bool Lia Sorted Reals Lra.
From Verif Require Import Arith Vec Prim Cons Sketch Solve Api Spec SolverSpec ArithR ExactSpec LinearSpec
  HeapLemmas SolveLemmas WfLemmas DataLemmas SpecLemmas ExactLemmas GradLemmas PureLemmas LossLemmas
  SearchLemmas StepLemmas RMat ExactRun SolverForms LinearLemmas LinearForms RateLemmas.
Import ListNotations.
Local Open Scope R_scope.

Section Run.
Variables (s : sketch) (h0 : heap xR).
Hypothesis V : valid h0 s.
Hypothesis FD : finite_data h0 s.
Hypothesis CF : all_con_finite h0 s.
Hypothesis LS : linear_sketch h0 s.
Notation N := (INR (length (points s))).
Notation K := (INR (length (s_cons s))).

Lemma sub h : okh s h0 h -> valid h s /\ finite_data h s /\ all_con_finite h s /\ linear_sketch h s.
Proof. intros Ho. eapply (ok_sub s h0); auto. Qed.
Lemma again h h1 g : valid h s -> get_gradient s h = (h1, Val g) -> exists h1', get_gradient s h1 = (h1', Val g).
Proof.
  intros Vh Eg. destruct (C17_twice_lemma h s Vh) as [T _]. rewrite Eg in T. simpl in T.
  destruct (get_gradient s h1) as [h1' r]. exists h1'. simpl in T. now rewrite T.
Qed.

(** slope, curvature and line search along the negative gradient *)
Lemma search_neg h g h1 : okh s h0 h -> get_gradient s h = (h1, Val (map Fin g)) -> 0 < dotL g g ->
  exists q l, get_loss h s = Fin l /\ 0 < q /\ dotL g g <= 2 * (N * N) * q /\ q <= K * dotL g g /\
    (forall a hx, at_point h s (vadd (get_data h s) (vscale (Fin a) (FinV (negL g)))) hx -> get_loss hx s = Fin (l - a * dotL g g + a * a * q)) /\
    let reachable := q <= 9999 / 10000 * dotL g g * 2 ^ 14 /\ dotL g g <= 20 * ((3 / 2) ^ 14 * q) in
    (reachable -> exists h' a, line_search_wolfe s (FinV (negL g)) (FinV g) h = (h', Val (LOk (Fin a))) /\
       dotL g g <= 20 * (a * q) /\ a * q <= 9999 / 10000 * dotL g g) /\
    (~ reachable -> exists h', line_search_wolfe s (FinV (negL g)) (FinV g) h = (h', Val (LErr SearchFailed))).
Proof.
  intros Ho Eg Pg. destruct (sub h Ho) as (Vh & Fh & Ch & Lh). destruct (grad_Fin _ _ _ _ Eg) as (gr & E & Lg).
  assert (gr = g) as -> by (apply (f_equal (map vx)) in E; unfold FinV in E; now rewrite !map_vx_Fin in E). clear E.
  assert (Ld : length (negL g) = get_n_dofs h s) by (rewrite negL_length; exact Lg).
  destruct (along s h0 V CF LS h (negL g) h1 g Ho Ld Eg) as (l & q & El & Pq & Hm & Kx).
  assert (Eq : q = curv h s (D_of (cells s) g)).
  { pose proof (along_curv h s Vh Ch Lh g l h1 Eg El g Lg (-1)) as A. pose proof (Hm 1) as B.
    assert (M : forall t, moved h s (negL g) t = moved h s g (- t)).
    { intros t. unfold moved. do 3 f_equal. unfold negL. generalize (map vx (get_data h s)). clear. induction g as [|x g IH]; intros [|y u]; simpl; auto.
      rewrite IH. f_equal. ring. }
    rewrite M in B. replace (-(1)) with (-1) in B by ring. rewrite A in B. injection B as B. rewrite dot_neg in B. lra. }
  exists q, l. split; [exact El|].
  pose proof (Hm 1) as Hm1.
  destruct (C70_search_lemma h s h1 g (negL g) l _ Vh Fh Ch Lh Eg Ld ltac:(rewrite dot_neg; lra) El Hm1) as (P & R1 & R2).
  rewrite dot_neg in P, R1, R2.
  replace (l + 1 * - dotL g g + 1 * 1 * q - l + - - dotL g g) with q in P, R1, R2 by ring.
  replace (- - dotL g g) with (dotL g g) in R1, R2 by ring.
  split; [exact P|]. split; [rewrite Eq; apply (slope_le h s Vh Ch Lh g l h1 Eg El)|].
  split; [rewrite Eq; apply (curv_le h s Vh Ch Lh g l h1 Eg El)|].
  split; [|split; [exact R1|exact R2]].
  intros a hx Ha. destruct (Kx a hx Ha) as (_ & E & _). rewrite E, dot_neg. f_equal. ring.
Qed.

(** one accepted step *)
Lemma step_loss h h1 g alpha h2 h3 : okh s h0 h -> get_gradient s h = (h1, Val g) ->
  line_search_wolfe s (vneg g) g h1 = (h2, Val (LOk alpha)) ->
  set_data s (vaxpy alpha (vneg g) (flit 1 0) (get_data h s)) h2 = (h3, Val tt) ->
  exists gr q, g = FinV gr /\ 0 < dotL gr gr /\ 0 < q /\ q <= K * dotL gr gr /\
    9999 / 100000000 * (dotL gr gr * dotL gr gr) <= q * (lossv s h - lossv s h3).
Proof.
  intros Ho Eg El Ed. assert (S1 := gradient_sd _ _ _ _ Eg). assert (Ho1 := ok_sd s h0 _ _ S1 Ho).
  destruct (grad_Fin _ _ _ _ Eg) as (gr & -> & Lg). rewrite vneg_R in *.
  destruct (again h h1 _ (proj1 (sub h Ho)) Eg) as [h1' Eg1].
  destruct (search_R s h0 V CF _ _ _ _ _ Ho1 El) as (a & -> & Pa & Hm & Ho2 & Ha & Hs & _).
  rewrite dot_neg in Hm. assert (Pg : 0 < dotL gr gr) by lra.
  destruct (search_neg h1 gr h1' Ho1 Eg1 Pg) as (q & l & Eloss & Pq & _ & Kq & Hq & R1 & R2).
  assert (R : q <= 9999 / 10000 * dotL gr gr * 2 ^ 14 /\ dotL gr gr <= 20 * ((3 / 2) ^ 14 * q)).
  { apply Classical_Prop.NNPP. intros Nn. destruct (R2 Nn) as [h' E]. rewrite E in El. discriminate. }
  destruct (R1 R) as (h' & a' & E & B1 & B2). rewrite E in El.
  assert (a' = a) as -> by now injection El. clear E R R1 R2.
  destruct (ok_set s h0 V _ _ _ (proj1 Ho2) Ed) as [Ho3 Hd].
  assert (V1 : valid h1 s) by now apply (ok_valid s h0).
  assert (S3 : sdeq h2 h3).
  { eapply at_unique; [exact Ha | | exact V1].
    apply at_frame; [exact V1|]. split.
    - eapply frame_trans; [apply at_frame in Ha as [Ha _]; [exact Ha|exact V1] | eapply set_frame, Ed].
    - rewrite Hd, (sd_get_data _ _ s S1), (ok_data s h0 h Ho), vscale_R, vadd_R, vaxpy_R. reflexivity. }
  exists gr, q. split; auto. split; auto. split; auto. split; auto.
  unfold lossv. rewrite (sd_get_loss _ _ s S3), (Hq a h2 Ha), <- (sd_get_loss _ _ s S1), Eloss. simpl.
  set (m := dotL gr gr) in *. set (z := a * q) in *.
  replace (q * (l - (l - a * m + a * a * q))) with (z * (m - z)) by (unfold z; ring).
  assert (0 <= (z - m / 10000) * (9999 / 10000 * m - z)) by (apply Rmult_le_pos; lra). lra.
Qed.

Lemma rate_K : forall l l3 m q n, 0 < m -> 0 < q -> q <= K * m -> 9999 / 100000000 * (m * m) <= q * (l - l3) -> 2 * l <= n * n * m -> 0 <= l3 ->
  l3 <= (1 - / (5001 * K * (n * n))) * l.
Proof.
  intros l l3 m q n Pm Pq Kq D L P3.
  assert (PK : 0 < K) by (apply (Rmult_lt_reg_r m); lra).
  assert (Pd : 0 < l - l3). { apply (Rmult_lt_reg_l q); auto. assert (0 < m * m) by nra. lra. }
  assert (Pn : 0 < n * n). { apply (Rmult_lt_reg_r m); auto. lra. }
  assert (D2 : 9999 / 100000000 * m <= K * (l - l3)).
  { apply (Rmult_le_reg_l m); auto. assert (q * (l - l3) <= K * m * (l - l3)) by (apply Rmult_le_compat_r; lra). lra. }
  assert (D3 : 2 * l * (9999 / 100000000) <= n * n * (K * (l - l3))).
  { assert (n * n * (9999 / 100000000 * m) <= n * n * (K * (l - l3))) by (apply Rmult_le_compat_l; lra). lra. }
  assert (Pc : 0 < 5001 * K * (n * n)) by (apply Rmult_lt_0_compat; lra).
  assert (D4 : l <= 5001 * K * (n * n) * (l - l3)) by lra.
  assert (/ (5001 * K * (n * n)) * l <= l - l3); [|lra].
  apply (Rmult_le_reg_l (5001 * K * (n * n))); auto. rewrite <- Rmult_assoc, Rinv_r by lra. lra.
Qed.

(** ** with a solution *)
Section Solvable.
Variables (x : list R) (hx : heap xR).
Hypothesis Hx : at_point h0 s (map Fin x) hx.
Hypothesis Sx : all_satisfied hx s.
Lemma gap_N h h1 g l : okh s h0 h -> get_gradient s h = (h1, Val (map Fin g)) -> get_loss h s = Fin l -> 2 * l <= N * N * dotL g g.
Proof.
  intros Ho Eg El. destruct (sub h Ho) as (Vh & Fh & Ch & Lh).
  assert (Ha := at_from s h0 x hx V Hx h Ho).
  pose proof (C69_gap_lemma h s h1 g x hx Vh Fh Ch Lh Eg Ha Sx) as G. rewrite El in G. injection G as G.
  set (X := map vx (get_data h s)) in *. pose proof (at_length _ _ _ _ Ha) as Lx.
  assert (LX : length X = length x) by (unfold X; rewrite map_length, data_length; auto).
  assert (Ld : length (minusL x X) = get_n_dofs h s) by (rewrite minusL_length; congruence).
  pose proof (along_curv h s Vh Ch Lh g l h1 Eg El _ Ld 1) as A.
  assert (Hxo : okh s h0 hx) by (eapply ok_at; eauto).
  assert (Z : get_loss hx s = Fin 0) by (apply C14_zero_lemma; [apply (ok_fin s h0 CF hx Hxo) | exact Sx]).
  assert (S := at_moved h s x hx Vh Ha). fold X in S. rewrite (sd_get_loss _ _ s S) in Z || rewrite <- (sd_get_loss _ _ s S) in Z.
  rewrite Z in A. injection A as A.
  rewrite dot_minus_swap in G.
  apply (loss_le h s Vh Ch Lh g l h1 Eg El (minusL x X) Ld); [|lra].
  replace (dotL g (minusL x X)) with (- (2 * l)) by lra. ring.
Qed.
Lemma rate_step h h1 g alpha h2 h3 : okh s h0 h -> get_gradient s h = (h1, Val g) ->
  line_search_wolfe s (vneg g) g h1 = (h2, Val (LOk alpha)) ->
  set_data s (vaxpy alpha (vneg g) (flit 1 0) (get_data h s)) h2 = (h3, Val tt) ->
  lossv s h3 <= (1 - / (5001 * K * (N * N))) * lossv s h.
Proof.
  intros Ho Eg El Ed. destruct (step_loss _ _ _ _ _ _ Ho Eg El Ed) as (gr & q & -> & Pm & Pq & Kq & D).
  destruct (gd_step_R s h0 V CF _ _ _ _ _ _ Ho Eg El Ed) as [Ho3 _].
  apply (rate_K _ _ (dotL gr gr) q N Pm Pq Kq D).
  - eapply gap_N; [exact Ho|exact Eg|]. apply (ok_loss s h0 CF h Ho).
  - eapply loss_pos; [apply (ok_fin s h0 CF h3 Ho3)|]. apply (ok_loss s h0 CF h3 Ho3).
Qed.
Lemma rate_nonneg : 0 <= 1 - / (5001 * K * (N * N)).
Proof.
  destruct (length (s_cons s)) as [|k]; [simpl INR; rewrite Rmult_0_r, Rmult_0_l, Rinv_0; lra|].
  destruct (length (points s)) as [|n]; [simpl (INR 0); rewrite !Rmult_0_r, Rinv_0; lra|].
  rewrite !S_INR. pose proof (pos_INR k). pose proof (pos_INR n).
  assert (1 <= 5001 * (INR k + 1) * ((INR n + 1) * (INR n + 1))).
  { assert (1 <= (INR n + 1) * (INR n + 1)) by nra. assert (1 <= 5001 * (INR k + 1)) by lra. nra. }
  assert (/ (5001 * (INR k + 1) * ((INR n + 1) * (INR n + 1))) <= / 1) by (apply Rinv_le_contravar; lra). rewrite Rinv_1 in H2. lra.
Qed.
Lemma rate_steps n h : gd_steps s h0 n h -> okh s h0 h /\ lossv s h <= (1 - / (5001 * K * (N * N))) ^ n * lossv s h0.
Proof.
  induction 1 as [|n h h1 g alpha h2 h3 Hs (O1 & D1) Hg Hl Hd].
  - split; [now apply okh_init | simpl; lra].
  - split; [apply (gd_step_R s h0 V CF _ _ _ _ _ _ O1 Hg Hl Hd)|].
    pose proof (rate_step _ _ _ _ _ _ O1 Hg Hl Hd) as R. pose proof rate_nonneg as P.
    set (r := 1 - / (5001 * K * (N * N))) in *. eapply Rle_trans; [exact R|]. simpl. rewrite Rmult_assoc. now apply Rmult_le_compat_l.
Qed.
Lemma run_outcome P h' n lo e : gd_run s P h0 = (h', Val (SOk n)) -> gd_min_loss P = Fin lo -> gd_min_grad P = Fin e ->
  lossv s h' < lo \/ 2 * lossv s h' <= N * N * (e * e) \/
  n = N.to_nat (gd_max P) /\ lossv s h' <= (1 - / (5001 * K * (N * N))) ^ n * lossv s h0.
Proof.
  intros E Elo Ee. apply gd_run_spec in E as (m & hn & _ & Hs & -> & g & Hg & C).
  destruct (rate_steps _ _ Hs) as [Ho R]. assert (S := gradient_sd _ _ _ _ Hg).
  assert (EL : lossv s h' = lossv s hn) by (unfold lossv; now rewrite (sd_get_loss _ _ s S)). rewrite EL.
  destruct C as [C|[C|C]].
  - right; left. destruct (grad_Fin _ _ _ _ Hg) as (gr & -> & Lg). rewrite Ee, vnorm_R in C. apply lt_true in C.
    pose proof (gap_N hn h' gr _ Ho Hg (ok_loss s h0 CF hn Ho)) as G. fold (lossv s hn) in G.
    assert (Pg := dotL_sq_nonneg gr). pose proof (sqrt_pos (dotL gr gr)) as Ps. pose proof (sqrt_sqrt _ Pg) as Q.
    assert (dotL gr gr <= e * e) by nra. pose proof (pos_INR (length (points s))).
    assert (N * N * dotL gr gr <= N * N * (e * e)) by (apply Rmult_le_compat_l; auto; nra). lra.
  - left. rewrite Elo, (ok_loss s h0 CF hn Ho) in C. now apply lt_true in C.
  - right; right. auto.
Qed.
End Solvable.

(** ** few points: the search never fails *)
Section Small.
Hypothesis HN : (length (points s) <= 54)%nat.
Hypothesis HK : K <= 16382.
Variables (P : gd_params xR) (lo e : R).
Hypothesis Elo : gd_min_loss P = Fin lo.
Hypothesis Ee : gd_min_grad P = Fin e.
Hypothesis Pe : 0 < e.
Lemma small_search h h1 gr : okh s h0 h -> get_gradient s h = (h1, Val (FinV gr)) -> 0 < dotL gr gr ->
  exists h2 a, line_search_wolfe s (FinV (negL gr)) (FinV gr) h1 = (h2, Val (LOk (Fin a))).
Proof.
  intros Ho Eg Pg. assert (S1 := gradient_sd _ _ _ _ Eg). assert (Ho1 := ok_sd s h0 _ _ S1 Ho).
  destruct (again h h1 _ (proj1 (sub h Ho)) Eg) as [h1' Eg1].
  destruct (search_neg h1 gr h1' Ho1 Eg1 Pg) as (q & l & _ & Pq & Q1 & Q2 & _ & R1 & _).
  destruct R1 as (h2 & a & E & _); [|eauto].
  assert (Nn : N <= 54) by (apply le_INR in HN; simpl in HN; lra).
  pose proof (pos_INR (length (points s))) as P0. split.
  - assert (K * dotL gr gr <= 16382 * dotL gr gr) by (apply Rmult_le_compat_r; lra). simpl. lra.
  - assert (N * N <= 54 * 54) by (apply Rmult_le_compat; lra).
    assert (N * N * q <= 54 * 54 * q) by (apply Rmult_le_compat_r; lra). simpl. lra.
Qed.
Lemma small_loop n : forall it hn h1 g, okh s h0 hn -> get_gradient s hn = (h1, Val g) ->
  exists h' k, gd_loop s P n it g (vnorm g) (get_loss hn s) h1 = (h', Val (SOk k)).
Proof.
  induction n as [|n IH]; intros it hn h1 g Ho Eg; [eexists _, _; reflexivity|]. cbn [gd_loop].
  destruct (grad_Fin _ _ _ _ Eg) as (gr & -> & Lg).
  destruct (flt (vnorm (FinV gr)) (gd_min_grad P)) eqn:C1; [eexists _, _; reflexivity|].
  destruct (flt (get_loss hn s) (gd_min_loss P)) eqn:C2; [eexists _, _; reflexivity|].
  rewrite Ee, vnorm_R in C1. apply lt_false in C1.
  assert (Pg : 0 < dotL gr gr).
  { pose proof (dotL_sq_nonneg gr) as [Q|Q]; auto. rewrite <- Q, sqrt_0 in C1. lra. }
  destruct (small_search hn h1 gr Ho Eg Pg) as (h2 & a & El). rewrite vneg_R. unfold mbind at 1. rewrite El.
  assert (S1 := gradient_sd _ _ _ _ Eg). assert (Ho1 := ok_sd s h0 _ _ S1 Ho).
  destruct (search_R s h0 V CF _ _ _ _ _ Ho1 El) as (a' & Ea & Pa & Hm & Ho2 & _).
  rewrite (ok_data s h0 h1 Ho1). unfold f1. rewrite vaxpy_R.
  set (v := FinV _) at 1.
  assert (Lv : length v = get_n_dofs h2 s).
  { unfold v. rewrite FinV_length. unfold addL, sclL, negL. rewrite map2_min, !map_length, data_length.
    rewrite Lg, (n_dofs_any h1 hn), (n_dofs_any h2 hn). apply Nat.min_id. }
  destruct (set_data_ok s v h2 Lv) as [h3 E3]; [apply finite_FinV|].
  unfold mbind at 1. rewrite E3. destruct (ok_set s h0 V _ _ _ (proj1 Ho2) E3) as [Ho3 _].
  destruct (sub h3 Ho3) as (V3 & F3 & C3 & L3).
  destruct (linear_quadratic h3 s V3 C3 L3) as (h4 & g' & l3 & Eg3 & _).
  unfold mbind at 1. rewrite Eg3. exact (IH (S it) h3 h4 _ Ho3 Eg3).
Qed.
Lemma small_run : exists h' n, gd_run s P h0 = (h', Val (SOk n)).
Proof.
  destruct (linear_quadratic h0 s V CF LS) as (h1 & g & l & Eg & _).
  unfold gd_run, mbind at 1. rewrite Eg. rewrite (sd_get_loss _ _ s (gradient_sd _ _ _ _ Eg)).
  apply small_loop; auto. now apply okh_init.
Qed.
End Small.
End Run.

Lemma pow_exp x n : 0 <= 1 - x -> (1 - x) ^ n <= exp (- (INR n * x)).
Proof.
  intros H. induction n as [|n IH]; [simpl; rewrite Rmult_0_l, Ropp_0, exp_0; lra|].
  rewrite S_INR. replace (- ((INR n + 1) * x)) with (- x + - (INR n * x)) by ring. rewrite exp_plus. simpl.
  apply Rmult_le_compat; auto; [apply pow_le; auto|]. pose proof (exp_ineq1_le (- x)). lra.
Qed.
Lemma C78_enough s (h : heap xR) x hx P lo e l : valid h s -> finite_data h s -> all_con_finite h s -> linear_sketch h s ->
  at_point h s (map Fin x) hx -> all_satisfied hx s -> (length (points s) <= 54)%nat -> INR (length (s_cons s)) <= 16382 ->
  gd_min_loss P = Fin lo -> gd_min_grad P = Fin e -> 0 < e -> get_loss h s = Fin l ->
  let N := INR (length (points s)) in let K := INR (length (s_cons s)) in
  l <= lo * exp (INR (N.to_nat (gd_max P)) * / (5001 * K * (N * N))) ->
  exists h' n l', gd_run s P h = (h', Val (SOk n)) /\ get_loss h' s = Fin l' /\ (l' <= lo \/ 2 * l' <= N * N * (e * e)).
Proof.
  intros V FD CF LS Hx Sx HN HK Elo Ee Pe El N K B.
  destruct (small_run s h V FD CF LS HN HK P e Ee Pe) as (h' & n & E).
  exists h', n, (lossv s h'). split; [exact E|].
  destruct (gd_run_closer s h x hx V FD CF LS Hx Sx P h' n E) as [Ho _].
  split; [apply (ok_loss s h CF h' Ho)|].
  destruct (run_outcome s h V FD CF LS x hx Hx Sx P h' n lo e E Elo Ee) as [C|[C|[-> C]]]; [left; lra|now right|left].
  eapply Rle_trans; [exact C|]. unfold lossv. rewrite El. simpl. fold N K in C |- *.
  pose proof (rate_nonneg s) as R. fold N K in R.
  assert (Pl : 0 <= l) by (eapply loss_pos; eauto).
  set (w := / (5001 * K * (N * N))) in *. set (m := N.to_nat (gd_max P)) in *.
  pose proof (pow_exp w m R) as Q.
  apply Rle_trans with (exp (- (INR m * w)) * l); [apply Rmult_le_compat_r; auto|].
  apply Rle_trans with (exp (- (INR m * w)) * (lo * exp (INR m * w))).
  - apply Rmult_le_compat_l; [left; apply exp_pos|exact B].
  - rewrite exp_Ropp. pose proof (exp_pos (INR m * w)). right. field. lra.
Qed.
