(** * The exact course of Gauss-Newton on independent linear constraints (C83) *)
From Coq Require Import List ZArith NArith Arith Bool Lia Sorted Reals Lra.
From Verif Require Import Arith Vec Prim Cons Sketch Solve Api Spec SolverSpec ArithR ExactSpec MotionSpec LinearSpec SlowSpec StallSpec
  HeapLemmas SolveLemmas WfLemmas DataLemmas SpecLemmas ExactLemmas DerivLemmas GradLemmas PureLemmas LossLemmas
  SearchLemmas StepLemmas RMat NlsMat ExactRun SolverForms RestLemmas ConserveLemmas MotionLemmas NlsDescent StayLemmas
  LinearLemmas LinearForms GraphLemmas RateLemmas SlowLemmas StallLemmas.
Import ListNotations.
Local Open Scope R_scope.

(** ** the step solves the linearised equations *)
Lemma combine_tr n J c : combine_rows n J c = mulL (trL n J) c.
Proof. unfold combine_rows, mulL, trL. now rewrite map_map. Qed.
Lemma zero_vec n v : length v = n -> dotL v v = 0 -> v = repeat 0 n.
Proof.
  intros L Z. pose proof (dot_self_zero _ Z) as X. clear Z. revert v L X. induction n as [|n IH]; intros [|a v] L X; try discriminate; auto.
  simpl. rewrite (X a (or_introl eq_refl)). f_equal. apply IH; [injection L; auto|]. intros y Hy. apply X. now right.
Qed.
Lemma mul_sub m u v : length u = length v -> mulL m (subL u v) = subL (mulL m u) (mulL m v).
Proof.
  intros L. unfold mulL. induction m as [|r m IH]; simpl; auto. rewrite IH. unfold subL at 3. simpl. fold (subL (map (fun r => dotL r u) m) (map (fun r => dotL r v) m)). f_equal. now apply dot_sub_r.
Qed.
Section Mat.
Variables (n : nat) (J : list (list R)) (lam eps : R) (q : list (list R)).
Hypothesis RJ : rows n J.
Hypothesis GL : gram_at_least n J lam.
Hypothesis Pl : 0 < lam.
Hypothesis Pe : 0 <= eps < lam.
Hypothesis CI : cut_inverse n eps (mmL n (trL n J) J) q.
Lemma gram_zero c : length c = length J -> mulL (trL n J) c = repeat 0 n -> c = repeat 0 (length J).
Proof.
  intros L E. pose proof (GL c L) as G. rewrite combine_tr, E, dot_repeat0 in G. pose proof (dot_self_nonneg c).
  apply zero_vec; auto. nra.
Qed.
Lemma gram_up c : length c = length J -> lam * dotL (mulL (trL n J) c) (mulL (trL n J) c) <= dotL (mulL J (mulL (trL n J) c)) (mulL J (mulL (trL n J) c)).
Proof.
  intros L. set (u := mulL (trL n J) c). assert (Lu : length u = n) by (unfold u; rewrite mulL_length; apply trL_length).
  pose proof (GL c L) as G. rewrite combine_tr in G. fold u in G.
  assert (E : dotL u u = dotL c (mulL J u)). { unfold u at 2. rewrite (adjoint n u Lu) by auto. apply dot_comm. }
  pose proof (dotL_cauchy c (mulL J u) ltac:(rewrite mulL_length; auto)) as C. rewrite <- E in C.
  pose proof (dot_self_nonneg u) as Nu. pose proof (dot_self_nonneg c) as Nc. pose proof (dot_self_nonneg (mulL J u)) as Nj.
  set (a := dotL u u) in *. set (b := dotL c c) in *. set (d := dotL (mulL J u) (mulL J u)) in *. clearbody a b d. clear E.
  destruct (Req_dec a 0) as [->|Na]; [lra|]. assert (0 < a) by lra.
  apply (Rmult_le_reg_r a); auto. assert (lam * (a * a) <= lam * (b * d)) by (apply Rmult_le_compat_l; lra).
  assert (lam * b * d <= a * d) by (apply Rmult_le_compat_r; auto). lra.
Qed.
Lemma step_solves w : length w = length J -> mulL J (mulL q (mulL (trL n J) w)) = w.
Proof.
  intros Lw. destruct CI as ((( Lq & Rq & Sy) & Q1 & Q2) & _ & Q4). change mulR with mulL in *.
  set (g := mulL (trL n J) w). assert (Lg : length g = n) by (unfold g; rewrite mulL_length; apply trL_length).
  set (p := mulL q g). assert (Lp : length p = n) by (unfold p; now rewrite mulL_length).
  set (z := subL (mulL J p) w). assert (Lz : length z = length J) by (unfold z; rewrite subL_length; rewrite mulL_length; auto).
  assert (Et : mulL (trL n J) z = subL (mulL (mmL n (trL n J) J) p) g).
  { rewrite jtj_mul by auto. unfold z, g. apply mul_sub. rewrite mulL_length. auto. }
  assert (Lt : length (mulL (trL n J) z) = n) by (rewrite mulL_length; apply trL_length).
  assert (Zq : mulL q (mulL (trL n J) z) = repeat 0 n).
  { rewrite Et. rewrite mul_sub by (rewrite mulL_length; unfold mmL; rewrite map_length, trL_length; auto). unfold p at 1. rewrite Q1 by auto.
    fold p. clear - Lp. revert Lp. generalize p as v. generalize n. induction n0 as [|k IH]; intros [|a v] L; try discriminate; auto.
    unfold subL in *. simpl. rewrite IH by (injection L; auto). f_equal. ring. }
  specialize (Q4 _ Lt Zq). rewrite jtj_mul in Q4 by auto. rewrite adjoint in Q4 by (auto; apply mulL_length).
  pose proof (gram_up z Lz) as G. pose proof (dot_self_nonneg (mulL (trL n J) z)) as Nz.
  assert (Z : dotL (mulL (trL n J) z) (mulL (trL n J) z) = 0) by nra.
  assert (Zt : mulL (trL n J) z = repeat 0 n).
  { now apply zero_vec. }
  assert (Ez := gram_zero z Lz Zt). unfold z in Ez. 
  assert (LJp : length (mulL J p) = length w) by (rewrite mulL_length; auto).
  clear - Ez LJp. revert Ez. generalize (length J). revert LJp. generalize (mulL J p) as u. induction w as [|b v IH]; intros [|a u] L k E; try discriminate; auto.
  unfold subL in *. destruct k as [|k]; simpl in E; [discriminate|]. injection E as E1 E2. f_equal; [lra|]. eapply IH; eauto.
Qed.
End Mat.
Lemma gram_scale n J J' c lam : rows n J -> rows n J' -> length J' = length J -> (forall d, length d = n -> mulL J' d = sclL c (mulL J d)) ->
  gram_at_least n J lam -> gram_at_least n J' (c * c * lam).
Proof.
  intros R R' L E G v Lv. rewrite combine_tr. 
  assert (T : mulL (trL n J') v = sclL c (mulL (trL n J) v)).
  { assert (A1 : length (mulL (trL n J') v) = n) by (rewrite mulL_length; apply trL_length).
    apply dot_eq; [rewrite sclL_length, !mulL_length, !trL_length; auto|]. intros d Ld. rewrite A1 in Ld.
    rewrite (dot_comm _ d), adjoint by auto. rewrite dot_scl_l, (dot_comm _ d), adjoint by (auto; congruence). rewrite E by auto. apply dot_scl_l. }
  rewrite T. rewrite dot_scl_l, dot_scl_r. specialize (G v ltac:(congruence)). rewrite combine_tr in G.
  assert (0 <= c * c) by nra. pose proof (Rmult_le_compat_l _ _ _ H G). lra.
Qed.

Lemma rows_scale n c J : forall J', rows n J -> rows n J' -> length J' = length J -> (forall d, length d = n -> mulL J' d = sclL c (mulL J d)) -> J' = map (sclL c) J.
Proof.
  induction J as [|r J IH]; intros [|r' J'] R R' L E; try discriminate; auto. inversion R; inversion R'; subst. simpl. f_equal.
  - apply dot_eq; [rewrite sclL_length; congruence|]. intros d Ld. specialize (E d ltac:(congruence)). simpl in E. injection E as E _. rewrite E. symmetry. apply dot_scl_l.
  - apply IH; auto. intros d Ld. specialize (E d Ld). simpl in E. now injection E.
Qed.
Lemma accepts_scaled n J J' c pinv eps : rows n J -> rows n J' -> length J' = length J -> (forall d, length d = n -> mulL J' d = sclL c (mulL J d)) -> c <> 0 ->
  accepts pinv eps (normal_matrix n J) -> exists Q, pinv (FinM (mmL n (trL n J') J')) (Fin eps) = PInv Q.
Proof.
  intros R R' L E Hc A. rewrite (rows_scale n c J J' R R' L E). destruct (A (c * c)) as [Q EQ]; [now apply (Rlt_0_sqr c)|].
  exists Q. rewrite <- EQ. f_equal. rewrite <- normal_mm. unfold normal_matrix. unfold FinM, FinV. rewrite !map_map. apply map_ext. intros i. rewrite !map_map. apply map_ext. intros j.
  f_equal. rewrite !map_map.
  assert (X : forall k, map (fun x => nth k (sclL c x) 0) J = sclL c (map (fun r => nth k r 0) J)).
  { intros k. unfold sclL at 2. rewrite map_map. apply map_ext. intros r. unfold sclL. replace 0 with (c * 0) at 1 by ring. apply map_nth. }
  rewrite !X, dot_scl_l, dot_scl_r. ring.
Qed.
(** ** constraints with one equation *)
Definition delta (h : heap xR) (D : cfg) (c : con xR) : R :=
  match c with
  | HorizontalDistance p1 p2 d => cx D p2 - cx D p1
  | VerticalDistance p1 p2 d => cy D p2 - cy D p1
  | HorizontalLine l => cy D (l_end (getL h l)) - cy D (l_start (getL h l))
  | VerticalLine l => cx D (l_end (getL h l)) - cx D (l_start (getL h l))
  | _ => 0
  end.
Lemma one_linear c : one_equation c = true -> linear c = true.
Proof. now destruct c. Qed.
Lemma one_loss g h c : one_equation c = true -> lossR g h c = sq (deviation g h c) / 2.
Proof. destruct c; simpl; try discriminate; intros _; unfold lossR; simpl; auto; unfold sq; field. Qed.
Lemma one_shift g h D t c : one_equation c = true -> deviation (shift g D t) h c = deviation g h c + t * delta h D c.
Proof. destruct c; simpl; try discriminate; intros _; ring. Qed.
Lemma struct_dev (h h' : heap xR) g c : struct_eq h h' -> deviation g h' c = deviation g h c /\ forall D, delta h' D c = delta h D c.
Proof. intros S. destruct c; simpl; rewrite ?(struct_getL _ _ _ S); auto. Qed.
Lemma sd_moved s (h : heap xR) d t h1 h2 : valid h s -> length d = get_n_dofs h s -> sdeq h h1 ->
  set_data s (FinV (addL (map vx (get_data h s)) (sclL t d))) h1 = (h2, Val tt) -> sdeq h2 (moved h s d t).
Proof.
  intros V Ld S1 E. assert (N1 := valid_nd _ _ V). assert (N2 := valid_cells _ _ V).
  assert (V1 : valid h1 s) by (eapply valid_struct; [exact V | apply S1]).
  assert (G := C09_set_get _ _ _ _ V1 E).
  apply (at_unique h s (FinV (addL (map vx (get_data h s)) (sclL t d)))); auto; apply at_frame; auto; split; auto.
  - eapply frame_trans; [apply (sd_frame_of s), S1 | eapply set_frame, E].
  - unfold moved. exact (set_data_frame' s (map Fin (map2 (fun x0 y => x0 + t * y) (map vx (get_data h s)) d)) h).
  - unfold moved. destruct (moved_ok h s d t N1 N2 Ld) as (_ & _ & _ & h' & E'). rewrite E'. cbn [fst].
    rewrite (C09_set_get _ _ _ _ V E'). unfold FinV, addL, sclL. f_equal. apply map2_axpy.
Qed.

Definition dev (h : heap xR) k := deviation (cfg_of h) h (getK h k).
Section Here.
Variables (s : sketch) (h : heap xR).
Hypothesis V : valid h s.
Hypothesis Fd : finite_data h s.
Hypothesis CF : all_con_finite h s.
Hypothesis OE : forall k, In k (s_cons s) -> one_equation (getK h k) = true.
Let n := get_n_dofs h s.
Lemma OE_lin : linear_sketch h s. Proof. intros k Hk. now apply one_linear, OE. Qed.
Lemma dev_moved d t k : length d = n -> In k (s_cons s) -> dev (moved h s d t) k = dev h k + t * delta h (D_of (cells s) d) (getK h k).
Proof.
  intros Ld Hk. assert (N1 := valid_nd _ _ V). assert (N2 := valid_cells _ _ V). unfold dev.
  destruct (moved_ok h s d t N1 N2 Ld) as (S & _). rewrite (struct_getK _ _ _ S), (moved_cfg h s d t N1 N2 Ld), (proj1 (struct_dev _ _ _ _ S)).
  apply one_shift. auto.
Qed.
Lemma loss_dev h' k : con_finite h' (getK h' k) -> one_equation (getK h' k) = true -> lossK h' k = sq (dev h' k) / 2.
Proof. intros C O. unfold lossK. rewrite loss_R by auto. now apply one_loss. Qed.
Lemma slope_dev d k : length d = n -> In k (s_cons s) -> slopeK s h d k = dev h k * delta h (D_of (cells s) d) (getK h k).
Proof.
  intros Ld Hk. pose proof (con_quad s h V CF OE_lin d k Ld Hk) as Q. assert (N1 := valid_nd _ _ V). assert (N2 := valid_cells _ _ V).
  assert (X : forall t, lossK (moved h s d t) k = sq (dev h k + t * delta h (D_of (cells s) d) (getK h k)) / 2).
  { intros t. destruct (moved_ok h s d t N1 N2 Ld) as (S & _). rewrite loss_dev; [now rewrite dev_moved| |].
    - rewrite (struct_getK _ _ _ S). apply moved_con_finite; auto.
    - rewrite (struct_getK _ _ _ S). auto. }
  assert (E0 : lossK h k = sq (dev h k) / 2) by (apply loss_dev; auto).
  pose proof (Q 1) as Q1. pose proof (Q (-1)) as Q2. rewrite X in Q1, Q2. rewrite E0 in *. unfold sq in *. lra.
Qed.
End Here.

(** ** the loop *)
Section Loop.
Variables (s : sketch) (h0 : heap xR).
Hypothesis V : valid h0 s.
Hypothesis FD : finite_data h0 s.
Hypothesis CF : all_con_finite h0 s.
Hypothesis OE : forall k, In k (s_cons s) -> one_equation (getK h0 k) = true.
Variable pinv : mat xR -> xR -> pinv_res (mat xR).
Hypothesis PI : cutting_pinv pinv.
Variables (eps st lam : R) (h1 : heap xR) (J : list (list R)).
Hypothesis Pe : 0 <= eps.
Hypothesis EJ : get_jacobian s h0 = (h1, Val (map (map Fin) J)).
Hypothesis Pl : 0 < lam.
Hypothesis GL : gram_at_least (get_n_dofs h0 s) J lam.
Let n := get_n_dofs h0 s.
Let rho := 1 - st / 2.
Hypothesis Hr : rho <> 0.
Definition at_time j (h : heap xR) := okh s h0 h /\ forall k, In k (s_cons s) -> dev h k = rho ^ j * dev h0 k.
Lemma ok_one h : okh s h0 h -> valid h s /\ finite_data h s /\ all_con_finite h s /\ (forall k, In k (s_cons s) -> one_equation (getK h k) = true) /\ get_n_dofs h s = n /\ struct_eq h0 h.
Proof.
  intros Ho. destruct (ok_sub s h0 V CF (OE_lin s h0 OE) h Ho) as (A & B & C & D). split; auto. split; auto. split; auto.
  assert (S : struct_eq h0 h) by (apply frame_struct with (s := s); apply Ho). split; [|split; [apply n_dofs_any|auto]].
  intros k Hk. rewrite (struct_getK _ _ _ S). auto.
Qed.
Lemma jac_at h : okh s h0 h -> exists h1 Jr, get_jacobian s h = (h1, Val (FinM Jr)) /\ sdeq h h1 /\ rows n Jr /\ length Jr = length (s_cons s) /\
  forall d, length d = n -> mulL Jr d = map (fun k => dev h k * delta h0 (D_of (cells s) d) (getK h0 k)) (s_cons s).
Proof.
  intros Ho. destruct (ok_one h Ho) as (Vh & Fh & Ch & Oh & En & Sh).
  destruct (jac_here s h Vh Ch (here_nd s h (OE_lin s h Oh))) as (h2 & Jr & E & S1 & RJ & LJ & PJ). rewrite En in *.
  exists h2, Jr. split; auto. split; auto. split; auto. split; [rewrite LJ, map_length; unfold get_loss_per_constraint; apply map_length|].
  intros d Ld. rewrite PJ by auto. apply map_ext_in. intros k Hk. fold (slopeK s h d k). rewrite slope_dev by (auto; congruence).
  rewrite (proj2 (struct_dev _ _ (cfg_of h) _ Sh)), (struct_getK _ _ _ Sh). reflexivity.
Qed.
Lemma dev_sd h h' k : sdeq h h' -> dev h' k = dev h k.
Proof.
  intros S. unfold dev. rewrite (struct_getK _ _ _ (proj1 S)), (proj1 (struct_dev _ _ _ _ (proj1 S))). f_equal. now apply sd_cfg.
Qed.
Lemma at_zero : at_time 0 h0.
Proof. split; [apply okh_init; auto|]. intros k _. simpl. ring. Qed.
Lemma J0 : rows n J /\ length J = length (s_cons s) /\
  forall d, length d = n -> mulL J d = map (fun k => dev h0 k * delta h0 (D_of (cells s) d) (getK h0 k)) (s_cons s).
Proof.
  destruct (jac_at h0 (proj1 at_zero)) as (h2 & Jr & E & _ & A). change (map (map Fin) J) with (FinM J) in EJ.
  assert (Jr = J) as <-; [|exact A]. rewrite EJ in E. injection E as _ E. symmetry in E. apply (f_equal (map (map vx))) in E.
  assert (X : forall a, map (map vx) (FinM a) = a). { intros a. unfold FinM, FinV. rewrite map_map. rewrite <- (map_id a) at 2. apply map_ext. intros r. apply map_vx_Fin. }
  now rewrite !X in E.
Qed.
Lemma dev_nonzero k : In k (s_cons s) -> dev h0 k <> 0.
Proof.
  intros Hk Z. destruct J0 as (RJ & LJ & PJ). set (c := map (fun k' => if Nat.eq_dec k' k then 1 else 0) (s_cons s)).
  assert (Lc : length c = length J) by (unfold c; rewrite map_length; auto).
  pose proof (GL c Lc) as G. rewrite combine_tr in G. fold n in G.
  assert (Zt : mulL (trL n J) c = repeat 0 n).
  { apply zero_vec; [rewrite mulL_length; apply trL_length|]. set (u := mulL (trL n J) c). assert (Lu : length u = n) by (unfold u; rewrite mulL_length; apply trL_length).
    unfold u at 2. rewrite adjoint by auto. rewrite PJ by auto. unfold c. rewrite <- dot_map2_sum.
    rewrite (map_ext _ (fun _ => 0)); [rewrite sum_const; ring|]. intros k'. destruct (Nat.eq_dec k' k) as [->|]; [rewrite Z|]; ring. }
  rewrite Zt, dot_repeat0 in G.
  assert (P : 1 <= dotL c c).
  { unfold c. rewrite <- dot_map2_sum. clear - Hk. induction (s_cons s) as [|a l IH]; [easy|]. simpl.
    assert (N : 0 <= sumR (map (fun k0 => (if Nat.eq_dec k0 k then 1 else 0) * (if Nat.eq_dec k0 k then 1 else 0)) l)).
    { apply (Rle_trans _ (sumR (map (fun _ => 0) l))); [rewrite sum_const; lra|]. apply sum_le. intros x _. destruct (Nat.eq_dec x k); lra. }
    destruct Hk as [->|Hk]; [destruct (Nat.eq_dec k k); [lra|easy]|]. specialize (IH Hk). destruct (Nat.eq_dec a k); lra. }
  nra.
Qed.
Lemma loss_at j h k : at_time j h -> In k (s_cons s) -> lossK h k = rho ^ (2 * j) * lossK h0 k.
Proof.
  intros [Ho Hd] Hk. destruct (ok_one h Ho) as (Vh & Fh & Ch & Oh & En & Sh). rewrite loss_dev by auto. rewrite (loss_dev h0) by auto.
  rewrite Hd by auto. unfold sq. replace (2 * j)%nat with (j + j)%nat by lia. rewrite pow_add. field.
Qed.
Lemma total_at j h : at_time j h -> total s h = rho ^ (2 * j) * total s h0.
Proof.
  intros At. unfold total. rewrite <- sumR_scal. f_equal. apply map_ext_in. intros k Hk. now apply loss_at.
Qed.
Lemma at_sd j h h' : sdeq h h' -> at_time j h -> at_time j h'.
Proof. intros S [Ho Hd]. split; [now apply (ok_sd s h0 _ _ S)|]. intros k Hk. rewrite (dev_sd _ _ _ S). auto. Qed.
Lemma track_pass j h : at_time j h -> eps < rho ^ (2 * j) * lam -> exists h2 jac, get_jacobian s h = (h2, Val jac) /\ sdeq h h2 /\
  match nls_step pinv (get_data h s) (get_loss_per_constraint h s) jac (gn_normal (length (get_data h s)) jac) (Fin eps) (Fin st) with
  | PInv y => exists h3, set_data s y h2 = (h3, Val tt) /\ at_time (S j) h3
  | _ => ~ accepts pinv eps (normal_matrix n J)
  end.
Proof.
  intros At He. assert (At' := At). destruct At as [Ho Hd]. destruct (ok_one h Ho) as (Vh & Fh & Ch & Oh & En & Sh).
  destruct (jac_at h Ho) as (h2 & Jr & E & S1 & RJ & LJ & PJ). exists h2, (FinM Jr). split; auto. split; auto.
  destruct J0 as (RJ0 & LJ0 & PJ0).
  set (x := map vx (get_data h s)). set (w := map vx (get_loss_per_constraint h s)).
  assert (Lx : length x = n) by (unfold x; rewrite map_length, get_data_length; exact En).
  assert (Ex : get_data h s = FinV x) by exact (ok_data s h h (okh_refl s h Vh Fh)).
  assert (Ew : get_loss_per_constraint h s = FinV w) by exact (losses_R s h0 CF h Ho).
  assert (Lw : length w = length Jr) by (unfold w; rewrite map_length; unfold get_loss_per_constraint; rewrite map_length; auto).
  assert (Pr : 0 < rho ^ (2 * j)) by (rewrite pow_mult; apply pow_lt; replace (rho ^ 2) with (Rsqr rho) by (unfold Rsqr; ring); now apply Rlt_0_sqr).
  assert (Sc : forall d, length d = n -> mulL Jr d = sclL (rho ^ j) (mulL J d)).
  { intros d Ld. rewrite PJ, PJ0 by auto. unfold sclL. rewrite map_map. apply map_ext_in. intros k Hk. rewrite Hd by auto. ring. }
  assert (G : gram_at_least n Jr (rho ^ (2 * j) * lam)).
  { replace (rho ^ (2 * j) * lam) with (rho ^ j * rho ^ j * lam) by (replace (2 * j)%nat with (j + j)%nat by lia; rewrite pow_add; ring).
    apply (gram_scale n J Jr); auto. congruence. }
  rewrite Ex, Ew. destruct (nls_step pinv _ _ _ _ _ _) as [y| |] eqn:Es.
  2,3: (intros TP; unfold nls_step, gn_normal in Es; rewrite !FinV_length, mtrans_R, mmul_R, Lx in Es;
    destruct (accepts_scaled n J Jr (rho ^ j) pinv eps RJ0 RJ ltac:(congruence) Sc ltac:(now apply pow_nonzero) TP) as [Q EQ]; rewrite EQ in Es; discriminate).
  destruct (step_cut pinv x w Jr eps st y PI Pe Lw) as (q & T & ->); try rewrite Lx; auto. rewrite Lx in *.
  assert (Pl' : 0 < rho ^ (2 * j) * lam) by (apply Rmult_lt_0_compat; auto).
  assert (So := step_solves n Jr _ eps q RJ G Pl' (conj Pe He) T w Lw).
  set (p := mulL q (mulL (trL n Jr) w)) in *. assert (Lp : length p = n) by (unfold p; rewrite mulL_length; apply T).
  rewrite sub_neg. assert (Ln : length (negL p) = n) by (rewrite negL_length; exact Lp).
  destruct (set_data_ok s (FinV (addL x (sclL st (negL p)))) h2) as [h3 E3].
  { rewrite FinV_length, addL_length; rewrite ?sclL_length, Lx; auto. unfold n. symmetry. apply n_dofs_any. }
  { apply finite_FinV. }
  exists h3. split; auto. assert (Sm := sd_moved s h (negL p) st h2 h3 Vh ltac:(congruence) S1 E3).
  assert (Ho2 := ok_sd s h0 _ _ S1 Ho). destruct (ok_set s h0 V _ _ _ (proj1 Ho2) E3) as [Ho3 _]. split; auto.
  intros k Hk. rewrite <- (dev_sd _ _ k Sm). rewrite dev_moved by (auto; congruence).
  assert (Ek : dev h k * delta h (D_of (cells s) (negL p)) (getK h k) = - lossK h k).
  { rewrite <- (slope_dev s h) by (auto; congruence).
    assert (En' : mulL Jr (negL p) = map (fun k => - lossK h k) (s_cons s)).
    { assert (X : mulL Jr (negL p) = negL (mulL Jr p)) by (unfold mulL, negL; rewrite map_map; apply map_ext; intros r; apply dot_neg_r).
      rewrite X, So. unfold w, negL, lossK, get_loss_per_constraint. now rewrite !map_map. }
    rewrite PJ in En' by auto. assert (Y : forall l, map (fun k => dev h k * delta h0 (D_of (cells s) (negL p)) (getK h0 k)) l = map (fun k => - lossK h k) l -> In k l ->
      dev h k * delta h0 (D_of (cells s) (negL p)) (getK h0 k) = - lossK h k).
    { intros l. clear. induction l as [|a l IH]; [easy|]. simpl. intros E [->|H]; injection E as E1 E2; auto. }
    specialize (Y _ En' Hk). rewrite slope_dev by (auto; congruence). rewrite (proj2 (struct_dev _ _ (cfg_of h) _ Sh)), (struct_getK _ _ _ Sh). exact Y. }
  rewrite (loss_dev h k) in Ek by auto. 
  assert (Nz : dev h k <> 0). { rewrite Hd by auto. apply Rmult_integral_contrapositive. split; [now apply pow_nonzero|now apply dev_nonzero]. }
  assert (De : delta h (D_of (cells s) (negL p)) (getK h k) = - dev h k / 2). { apply (Rmult_eq_reg_l (dev h k)); auto. rewrite Ek. unfold sq. field. }
  rewrite De, Hd by auto. simpl. unfold rho. field.
Qed.
Lemma loss_check j h : at_time j h -> vsum (get_loss_per_constraint h s) = checked_loss rho (total s h0) (S j).
Proof. intros At. rewrite (proj2 (loss_total s h0 CF h (proj1 At))), (total_at j h At). reflexivity. Qed.
Lemma track_loop ml K : (forall j, (j < K)%nat -> fgt (checked_loss rho (total s h0) j) ml = true -> eps < rho ^ (2 * j) * lam) ->
  forall k it h, (it + k = K)%nat -> at_time it h -> (forall j, (j < it)%nat -> fgt (checked_loss rho (total s h0) j) ml = true) ->
  exists h' r, nls_loop pinv s gn_normal ml (Fin eps) (Fin st) k it (checked_loss rho (total s h0) it) h = (h', r) /\
  (accepts pinv eps (normal_matrix n J) -> exists i, r = Val (SOk i)) /\
  forall i, r = Val (SOk i) -> at_time i h' /\ (i <= K)%nat /\ (forall j, (j < i)%nat -> fgt (checked_loss rho (total s h0) j) ml = true) /\
    (i = K \/ fgt (checked_loss rho (total s h0) i) ml = false).
Proof.
  intros He. induction k as [|k IH]; intros it h Hk At Hj; cbn [nls_loop].
  - exists h, (Val (SOk it)). split; auto. split; [eauto|]. intros i [= <-]. split; auto. split; [lia|]. split; auto. left. lia.
  - destruct (fgt _ ml) eqn:El; cbn [negb].
    2:{ exists h, (Val (SOk it)). split; auto. split; [eauto|]. intros i [= <-]. split; auto. split; [lia|]. split; auto. }
    destruct (track_pass it h At (He it ltac:(lia) El)) as (h2 & jac & EJ2 & S1 & M). unfold mbind at 1. rewrite EJ2.
    destruct (nls_step _ _ _ _ _ _ _) as [y| |].
    + destruct M as (h3 & E3 & At3). unfold mbind. rewrite E3, (loss_check it h At).
      apply (IH (S it) h3); auto; [lia|]. intros j L. destruct (Nat.eq_dec j it) as [->|]; auto. apply Hj. lia.
    + eexists _, _. split; [reflexivity|]. split; [tauto|discriminate].
    + eexists _, _. split; [reflexivity|]. split; [tauto|discriminate].
Qed.
End Loop.

(** ** the forms stated in PropsStall.v *)
Lemma C83_trajectory_lemma s (h : heap xR) pinv P eps st lam h1 J l : valid h s -> finite_data h s -> all_con_finite h s ->
  (forall k, In k (s_cons s) -> one_equation (getK h k) = true) -> cutting_pinv pinv ->
  gn_eps P = Fin eps -> 0 <= eps -> gn_step P = Fin st -> st <> 2 ->
  get_jacobian s h = (h1, Val (map (map Fin) J)) -> 0 < lam -> gram_at_least (get_n_dofs h s) J lam -> get_loss h s = Fin l ->
  let rho := 1 - st / 2 in
  (forall j, (j < N.to_nat (gn_max P))%nat -> fgt (checked_loss rho l j) (gn_min_loss P) = true -> eps < rho ^ (2 * j) * lam) ->
  forall h' r, gn_run pinv s P h = (h', r) ->
  (accepts pinv eps (normal_matrix (get_n_dofs h s) J) -> exists i, r = Val (SOk i)) /\
  forall i, r = Val (SOk i) ->
    (forall k, In k (s_cons s) -> deviation (cfg_of h') h' (getK h' k) = rho ^ i * deviation (cfg_of h) h (getK h k)) /\
    get_loss h' s = Fin (rho ^ (2 * i) * l) /\ (i <= N.to_nat (gn_max P))%nat /\
    (forall j, (j < i)%nat -> fgt (checked_loss rho l j) (gn_min_loss P) = true) /\
    (i = N.to_nat (gn_max P) \/ fgt (checked_loss rho l i) (gn_min_loss P) = false).
Proof.
  intros V FD CF OE PI Ee Pe Es Hs EJ Pl GL El rho He h' r R. unfold gn_run in R. rewrite Ee, Es in R.
  assert (Et : total s h = l) by (rewrite (proj1 (loss_total s h CF h (okh_init s h V FD))) in El; now injection El). rewrite <- Et in *.
  assert (Hr : rho <> 0) by (unfold rho; lra).
  destruct (track_loop s h V FD CF OE pinv PI eps st lam h1 J Pe EJ Pl GL Hr (gn_min_loss P) (N.to_nat (gn_max P)) He (N.to_nat (gn_max P)) 0 h) as (h'' & r' & E & A & B);
    [lia|apply at_zero; auto|intros j Hj; lia|].
  cbn [checked_loss] in E. change PInf with (finf (F := xR)) in E. rewrite R in E. injection E as <- <-. split; auto.
  intros i Hi. destruct (B i Hi) as ([Ho Hd] & B1 & B2 & B3). split; [exact Hd|]. split; auto.
  rewrite (proj1 (loss_total s h CF h' Ho)). f_equal. apply (total_at s h V CF OE st). split; auto.
Qed.
Lemma C83_solves_lemma s (h : heap xR) pinv P eps st lam h1 J l lo : valid h s -> finite_data h s -> all_con_finite h s ->
  (forall k, In k (s_cons s) -> one_equation (getK h k) = true) -> cutting_pinv pinv ->
  gn_eps P = Fin eps -> 0 <= eps -> gn_step P = Fin st -> 0 < st < 2 -> gn_min_loss P = Fin lo -> 0 < lo ->
  get_jacobian s h = (h1, Val (map (map Fin) J)) -> gram_at_least (get_n_dofs h s) J lam -> get_loss h s = Fin l ->
  accepts pinv eps (normal_matrix (get_n_dofs h s) J) ->
  let rho := 1 - st / 2 in
  eps < lam -> eps * l < rho ^ 2 * lo * lam -> (0 < gn_max P)%N -> rho ^ (2 * (N.to_nat (gn_max P) - 1)) * l <= lo ->
  exists h' i l', gn_run pinv s P h = (h', Val (SOk i)) /\ get_loss h' s = Fin l' /\ l' <= rho ^ 2 * lo.
Proof.
  intros V FD CF OE PI Ee Pe Es Hs El0 Plo EJ GL El Ac rho H1 H2 Hm Hb.
  assert (Pr : 0 < rho) by (unfold rho; lra).
  assert (He : forall j, (j < N.to_nat (gn_max P))%nat -> fgt (checked_loss rho l j) (gn_min_loss P) = true -> eps < rho ^ (2 * j) * lam).
  { intros [|j] Lj Hf; [simpl; lra|]. rewrite El0 in Hf. unfold checked_loss, fgt in Hf. simpl in Hf. apply lt_true in Hf.
    replace (2 * S j)%nat with (2 * j + 2)%nat by lia. rewrite pow_add. set (a := rho ^ (2 * j)) in *.
    assert (Pa : 0 < a) by (apply pow_lt; auto). fold (rho ^ (2 * j)) in Hf || idtac. 
    assert (Hf' : lo < a * l) by exact Hf. assert (Pl : 0 < l) by nra. assert (P2 : 0 < rho ^ 2) by (apply pow_lt; auto).
    apply (Rmult_lt_reg_r l); auto. eapply Rlt_le_trans; [exact H2|].
    replace (a * rho ^ 2 * lam * l) with (rho ^ 2 * lam * (a * l)) by ring. replace (rho ^ 2 * lo * lam) with (rho ^ 2 * lam * lo) by ring.
    apply Rmult_le_compat_l; [|lra]. apply Rmult_le_pos; lra. }
  destruct (gn_run pinv s P h) as [h' r] eqn:R.
  destruct (C83_trajectory_lemma s h pinv P eps st lam h1 J l V FD CF OE PI Ee Pe Es ltac:(lra) EJ ltac:(lra) GL El He h' r R) as [A B].
  destruct (A Ac) as [i ->]. destruct (B i eq_refl) as (_ & L & Li & Bj & Bi). fold rho in L, Bj, Bi.
  exists h', i, (rho ^ (2 * i) * l). split; auto. split; auto.
  assert (P2 : 0 < rho ^ 2) by (apply pow_lt; auto).
  assert (K : exists i', i = S i' /\ rho ^ (2 * i') * l <= lo).
  { destruct Bi as [->|Bi].
    - exists (N.to_nat (gn_max P) - 1)%nat. split; [lia|exact Hb].
    - destruct i as [|i]; [rewrite El0 in Bi; discriminate|]. exists i. split; auto. rewrite El0 in Bi. unfold checked_loss, fgt in Bi. simpl in Bi. now apply lt_false in Bi. }
  destruct K as (i' & -> & K). replace (2 * S i')%nat with (2 + 2 * i')%nat by lia. rewrite pow_add, Rmult_assoc. apply Rmult_le_compat_l; lra.
Qed.
Lemma gn_pow_up : (1 - / 1000 / 2) ^ (2 * (N.to_nat 10000 - 1)) <= / 20000.
Proof.
  assert (A : (1 - / 1000 / 2) ^ 50 <= 97531 / 100000).
  { assert (A1 : (1 - / 1000 / 2) ^ 10 <= 995012 / 1000000) by (simpl; lra). apply (Rle_trans _ ((995012 / 1000000) ^ 5)); [|simpl; lra].
    change 50%nat with (10 * 5)%nat. rewrite pow_mult. apply pow_incr. split; [apply pow_le; lra|auto]. }
  assert (Z : forall j, 0 <= (1 - / 1000 / 2) ^ j) by (intros j; apply pow_le; lra).
  assert (A2 : (1 - / 1000 / 2) ^ (50 * 8) <= 81875 / 100000).
  { apply (Rle_trans _ ((97531 / 100000) ^ 8)); [|simpl; lra]. rewrite pow_mult. apply pow_incr. auto. }
  assert (A3 : (1 - / 1000 / 2) ^ (50 * 8 * 5) <= 36793 / 100000).
  { apply (Rle_trans _ ((81875 / 100000) ^ 5)); [|simpl; lra]. rewrite pow_mult. apply pow_incr. auto. }
  assert (A4 : (1 - / 1000 / 2) ^ (50 * 8 * 5 * 10) <= 4547 / 100000000).
  { apply (Rle_trans _ ((36793 / 100000) ^ 10)); [|simpl; lra]. rewrite pow_mult. apply pow_incr. auto. }
  replace (50 * 8 * 5 * 10)%nat with (2 * (N.to_nat 10000 - 1) + 2)%nat in A4 by (vm_compute; reflexivity).
  rewrite pow_add in A4. set (a := (1 - / 1000 / 2) ^ (2 * (N.to_nat 10000 - 1))) in *. assert (0 <= a) by apply Z. clearbody a. simpl in A4. lra.
Qed.
Lemma C83_default_lemma s (h : heap xR) pinv lam h1 J l : valid h s -> finite_data h s -> all_con_finite h s ->
  (forall k, In k (s_cons s) -> one_equation (getK h k) = true) -> cutting_pinv pinv ->
  get_jacobian s h = (h1, Val (map (map Fin) J)) -> gram_at_least (get_n_dofs h s) J lam -> get_loss h s = Fin l ->
  accepts pinv (/ 1000000) (normal_matrix (get_n_dofs h s) J) ->
  / 1000000 < lam -> 101 / 100 * l <= lam -> l <= / 50 ->
  exists h' i l', gn_run pinv s gn_default h = (h', Val (SOk i)) /\ get_loss h' s = Fin l' /\ l' <= / 1000000.
Proof.
  intros V FD CF OE PI EJ GL El Ac H1 H2 H3.
  assert (E1 : gn_eps (gn_default (F := xR)) = Fin (/ 1000000)) by (cbn; f_equal; lra).
  assert (E2 : gn_step (gn_default (F := xR)) = Fin (/ 1000)) by (cbn; f_equal; lra).
  assert (E3 : gn_min_loss (gn_default (F := xR)) = Fin (/ 1000000)) by (cbn; f_equal; lra).
  assert (Pl : 0 <= l).
  { rewrite (proj1 (loss_total s h CF h (okh_init s h V FD))) in El. injection El as <-. apply total_nonneg; auto. }
  destruct (C83_solves_lemma s h pinv gn_default (/ 1000000) (/ 1000) lam h1 J l (/ 1000000) V FD CF OE PI E1 ltac:(lra) E2 ltac:(lra) E3 ltac:(lra) EJ GL El Ac H1) as (h' & i & l' & A & B & C).
  - simpl. nra.
  - reflexivity.
  - pose proof gn_pow_up as G. change (gn_max gn_default) with 10000%N. set (a := (1 - / 1000 / 2) ^ _) in *. assert (0 <= a) by (apply pow_le; lra). clearbody a. nra.
  - exists h', i, l'. split; auto. split; auto. eapply Rle_trans; [exact C|]. simpl. lra.
Qed.
