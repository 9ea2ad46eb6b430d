(** * Gradient descent on sketches entered constraint by constraint (C85) *)
From Coq Require Import List ZArith NArith Arith Bool Lia Reals Lra Permutation.
From Verif Require Import Arith Vec Prim Cons Sketch Solve Api Spec SolverSpec ArithR ExactSpec LinearSpec TreeSpec
  HeapLemmas SolveLemmas WfLemmas DataLemmas SpecLemmas ExactLemmas DerivLemmas GradLemmas LossLemmas MotionLemmas
  SearchLemmas StepLemmas RMat ExactRun SolverForms ConvergeLemmas LinearLemmas LinearForms GraphLemmas RateLemmas RateForms TreeLemmas TreeForms.
Import ListNotations.
Local Open Scope R_scope.

Lemma mentions_struct (h h' : heap xR) c : struct_eq h h' -> mentions h' c = mentions h c.
Proof.
  intros S. pose proof S as (_&_&_&_&_&HA&_). destruct c; simpl; rewrite ?(struct_getL _ _ _ S); auto; now rewrite (proj1 (HA a)).
Qed.
Lemma entered_struct (h h' : heap xR) kps : struct_eq h h' -> entered h kps -> entered h' kps.
Proof.
  intros S. induction kps as [|[k p] rest IH]; simpl; auto. rewrite !(struct_getK _ _ _ S), !(mentions_struct _ _ _ S).
  intros (C & Ap & En). split; auto. split; auto. intros j q Hj. rewrite !(struct_getK _ _ _ S), !(mentions_struct _ _ _ S). eauto.
Qed.
Lemma closed_struct (h h' : heap xR) s : struct_eq h h' -> refs_closed h s -> refs_closed h' s.
Proof.
  intros S [C1 C2]. split.
  - intros c r Hc Hr. rewrite (struct_refs _ _ _ S) in Hr. eauto.
  - intros k r Hk Hr. rewrite (struct_getK _ _ _ S) in Hr. eauto.
Qed.
Lemma one_loss h s k l : all_con_finite h s -> In k (s_cons s) -> get_loss h s = Fin l -> residual2 (cfg_of h) h (getK h k) <= 2 * l.
Proof.
  intros CF Hk El. rewrite (get_loss_R h s CF) in El. injection El as <-. clear CF.
  assert (K : lossR (cfg_of h) h (getK h k) <= sumR (map (fun k => lossR (cfg_of h) h (getK h k)) (s_cons s))).
  { pose proof (sum_le_one (fun _ => 0) (fun k => lossR (cfg_of h) h (getK h k)) (s_cons s) k (lossR (cfg_of h) h (getK h k))) as Q.
    rewrite sum_const in Q. rewrite Rmult_0_r, Rplus_0_l in Q. apply Q; auto; [|lra]. intros. apply lossR_nonneg. }
  unfold lossR at 1 in K. lra.
Qed.
Lemma roomy_nd h s l l0 : all_con_finite h s -> (forall k, In k (s_cons s) -> binary (getK h k) = true) ->
  roomy h s l0 -> get_loss h s = Fin l -> l <= l0 -> forall k, In k (s_cons s) -> nondegenerate (cfg_of h) h (getK h k).
Proof.
  intros CF B Rm El Ll k Hk. pose proof (one_loss h s k l CF Hk El) as R. specialize (B k Hk). specialize (Rm k).
  destruct (getK h k) eqn:Ek; try discriminate B; try exact I. specialize (Rm _ _ _ Hk eq_refl). cbn [residual2 nondegenerate] in *.
  set (w := len _) in *. set (d := vx _) in *. unfold sq in R.
  assert (Q : - (w - d) <= sqrt (2 * l0)).
  { destruct (Rle_dec (- (w - d)) 0) as [N|N]; [pose proof (sqrt_pos (2 * l0)); lra|].
    rewrite <- (sqrt_square (- (w - d))) by lra. apply sqrt_le_1_alt. nra. }
  lra.
Qed.

Section Run.
Variables (s : sketch) (h0 : heap xR) (kps : list (loc * loc)).
Hypothesis V : valid h0 s.
Hypothesis FD : finite_data h0 s.
Hypothesis RC : refs_closed h0 s.
Hypothesis CF : all_con_finite h0 s.
Hypothesis BN : forall k, In k (s_cons s) -> binary (getK h0 k) = true.
Hypothesis Pm : Permutation (map fst kps) (s_cons s).
Hypothesis En : entered h0 kps.
Hypothesis Rm : roomy h0 s (lossv s h0).
Notation m := (INR (length (s_cons s))).
Notation rate := (1 - / (81920000 * (m * m))).
Lemma run_gap h h1 gr : okh s h0 h -> lossv s h <= lossv s h0 -> get_gradient s h = (h1, Val (FinV gr)) ->
  2 * lossv s h <= m * m * dotL gr gr.
Proof.
  intros Ho L Eg. assert (S : struct_eq h0 h) by (apply (frame_struct s); apply Ho).
  assert (Ch := ok_fin s h0 CF h Ho). assert (El := ok_loss s h0 CF h Ho).
  assert (Bh : forall k, In k (s_cons s) -> binary (getK h k) = true) by (intros k Hk; rewrite (struct_getK _ _ _ S); auto).
  eapply (sk_loss h s (ok_valid s h0 V h Ho) (closed_struct _ _ _ S RC) Ch); eauto using entered_struct.
  eapply roomy_nd; eauto. intros k p1 p2 d Hk. rewrite (struct_getK _ _ _ S). now apply Rm.
Qed.
Lemma rate_pos : 0 <= rate.
Proof.
  destruct (length (s_cons s)) as [|n]; [simpl INR; rewrite !Rmult_0_r, Rinv_0; lra|].
  rewrite S_INR. pose proof (pos_INR n). assert (1 <= 81920000 * ((INR n + 1) * (INR n + 1))) by nra.
  apply (Rinv_le_contravar 1) in H0; lra.
Qed.
Lemma tree_steps n h : gd_steps s h0 n h -> okh s h0 h /\ lossv s h <= lossv s h0 /\ lossv s h <= rate ^ n * lossv s h0.
Proof.
  induction 1 as [|n h h1 g alpha h2 h3 Hs (O1 & L1 & D1) Hg Hl Hd].
  - split; [now apply okh_init|]. simpl. lra.
  - destruct (grad_Fin _ _ _ _ Hg) as (gr & -> & Lg).
    destruct (gd_step_rate s h0 V CF _ _ _ _ _ _ O1 Hg Hl Hd) as [O3 D3].
    pose proof (run_gap h h1 gr O1 L1 Hg) as G. pose proof (dotL_sq_nonneg gr) as Pg. split; auto. split; [lra|].
    assert (K : lossv s h3 <= rate * lossv s h).
    { destruct (Req_dec m 0) as [Z|Z].
      - rewrite Z, !Rmult_0_r, Rinv_0. lra.
      - pose proof (pos_INR (length (s_cons s))) as P0. assert (Pm2 : 0 < m * m) by nra.
        assert (Q : / (81920000 * (m * m)) * lossv s h <= / 163840000 * dotL gr gr).
        { apply (Rmult_le_reg_l (163840000 * (m * m))); [nra|].
          replace (163840000 * (m * m) * (/ (81920000 * (m * m)) * lossv s h)) with (2 * lossv s h) by (field; lra).
          replace (163840000 * (m * m) * (/ 163840000 * dotL gr gr)) with (m * m * dotL gr gr) by (field; lra). exact G. }
        lra. }
    eapply Rle_trans; [exact K|]. simpl. rewrite Rmult_assoc. apply Rmult_le_compat_l; auto using rate_pos.
Qed.
Lemma tree_run P h' n lo e : gd_run s P h0 = (h', Val (SOk n)) -> gd_min_loss P = Fin lo -> gd_min_grad P = Fin e ->
  okh s h0 h' /\ (lossv s h' < lo \/ 2 * lossv s h' <= m * m * (e * e) \/
  n = N.to_nat (gd_max P) /\ lossv s h' <= rate ^ n * lossv s h0).
Proof.
  intros E Elo Ee. apply gd_run_spec in E as (k & hn & _ & Hs & -> & g & Hg & C).
  destruct (tree_steps _ _ Hs) as (Ho & L & R). assert (S := gradient_sd _ _ _ _ Hg).
  split; [now apply (ok_sd s h0 hn)|].
  assert (EL : lossv s h' = lossv s hn) by (unfold lossv; now rewrite (sd_get_loss _ _ s S)). rewrite EL.
  destruct C as [C|[C|C]].
  - right; left. destruct (grad_Fin _ _ _ _ Hg) as (gr & -> & Lg). rewrite Ee, vnorm_R in C. apply lt_true in C.
    pose proof (run_gap hn h' gr Ho L Hg) as G.
    assert (Pg := dotL_sq_nonneg gr). pose proof (sqrt_pos (dotL gr gr)) as Ps. pose proof (sqrt_sqrt _ Pg) as Q.
    assert (dotL gr gr <= e * e) by nra. pose proof (pos_INR (length (s_cons s))).
    assert (m * m * dotL gr gr <= m * m * (e * e)) by (apply Rmult_le_compat_l; auto; nra). lra.
  - left. rewrite Elo, (ok_loss s h0 CF hn Ho) in C. now apply lt_true in C.
  - right; right. auto.
Qed.
End Run.

Lemma zero_pairs h s : valid h s -> all_con_finite h s ->
  (forall k, In k (s_cons s) -> nondegenerate (cfg_of h) h (getK h k)) ->
  (forall D, sumR (map (fun k => pairing h D (rowsR (cfg_of h) h (getK h k))) (s_cons s)) = 0) ->
  exists h1 gr, get_gradient s h = (h1, Val (map Fin gr)) /\ forall x, In x gr -> x = 0.
Proof.
  intros V CF ND Z. assert (G := sk_good h s CF ND).
  destruct (gradient_ok s h (valid_nd _ _ V) (valid_cells _ _ V) G) as (h' & E & L & P).
  exists h', (gvec s h'). split; auto. intros x Hx. apply In_nth with (d := 0) in Hx as (j & Hj & <-).
  rewrite <- (dot_unit _ _ j L), P by apply unitv_length. erewrite map_ext_in; [apply (Z (D_of (cells s) (unitv (get_n_dofs h s) j)))|].
  intros k Hk. cbv beta. f_equal. destruct (fin_rows_ok h (getK h k) (CF k Hk) (nondeg_eqlen _ _ _ (ND k Hk))) as (_ & _ & E1 & _).
  apply E1. now apply nondeg_active, ND.
Qed.
Lemma C85_zero_lemma h s : valid h s -> refs_closed h s -> all_con_finite h s ->
  (forall k, In k (s_cons s) -> nondegenerate (cfg_of h) h (getK h k)) -> one_by_one h s ->
  exists h1 gr, get_gradient s h = (h1, Val (map Fin gr)) /\
    ((forall x, In x gr -> x = 0) <->
     forall k, In k (s_cons s) -> satisfied (cfg_of h) h (getK h k) \/ crosswise (cfg_of h) h (getK h k)).
Proof.
  intros V RC CF ND OB.
  destruct (gradient_ok s h (valid_nd _ _ V) (valid_cells _ _ V) (sk_good h s CF ND)) as (h' & E & L & _).
  exists h', (gvec s h'). split; auto. split.
  - exact (sk_zero h s V RC CF ND _ h' E OB).
  - intros S. destruct (zero_pairs h s V CF ND) as (h1 & gr & E1 & Z).
    + intros D. apply sum_zero. intros k Hk.
      destruct (fin_rows_ok h (getK h k) (CF k Hk) (nondeg_eqlen _ _ _ (ND k Hk))) as (_ & _ & E2 & _).
      rewrite <- E2 by (now apply nondeg_active, ND). apply C19_backward; auto; [now apply nondeg_eqlen, ND|].
      destruct (S k Hk) as [Q|Q]; [now left|right]. destruct (getK h k); simpl in *; tauto.
    + rewrite E in E1. injection E1 as -> E1. apply (f_equal (map vx)) in E1. rewrite !map_vx_Fin in E1. now rewrite E1.
Qed.
Lemma C85_gap_lemma h s h1 gr l : valid h s -> refs_closed h s -> all_con_finite h s ->
  (forall k, In k (s_cons s) -> nondegenerate (cfg_of h) h (getK h k) /\ binary (getK h k) = true) -> one_by_one h s ->
  get_gradient s h = (h1, Val (map Fin gr)) -> get_loss h s = Fin l ->
  2 * l <= INR (length (s_cons s)) * INR (length (s_cons s)) * dotL gr gr.
Proof.
  intros V RC CF ND (kps & Pm & En) Eg El.
  exact (sk_loss h s V RC CF (fun k Hk => proj1 (ND k Hk)) (fun k Hk => proj2 (ND k Hk)) gr h1 Eg kps Pm En l El).
Qed.
Lemma C85_rate_lemma s (h0 : heap xR) l0 : valid h0 s -> finite_data h0 s -> refs_closed h0 s -> all_con_finite h0 s ->
  (forall k, In k (s_cons s) -> binary (getK h0 k) = true) -> one_by_one h0 s -> get_loss h0 s = Fin l0 -> roomy h0 s l0 ->
  forall n h, gd_steps s h0 n h ->
  exists l, get_loss h s = Fin l /\ l <= (1 - / (81920000 * (INR (length (s_cons s)) * INR (length (s_cons s))))) ^ n * l0.
Proof.
  intros V FD RC CF BN (kps & Pm & En) El Rm n h Hs. assert (E0 : lossv s h0 = l0) by (unfold lossv; now rewrite El).
  rewrite <- E0 in *. destruct (tree_steps s h0 kps V FD RC CF BN Pm En Rm n h Hs) as (Ho & _ & R).
  exists (lossv s h). split; [apply (ok_loss s h0 CF h Ho)|exact R].
Qed.
Lemma C85_run_lemma s (h0 h' : heap xR) l0 P n lo e : valid h0 s -> finite_data h0 s -> refs_closed h0 s -> all_con_finite h0 s ->
  (forall k, In k (s_cons s) -> binary (getK h0 k) = true) -> one_by_one h0 s -> get_loss h0 s = Fin l0 -> roomy h0 s l0 ->
  gd_min_loss P = Fin lo -> gd_min_grad P = Fin e -> gd_run s P h0 = (h', Val (SOk n)) ->
  exists l, get_loss h' s = Fin l /\
    (l < lo \/ 2 * l <= INR (length (s_cons s)) * INR (length (s_cons s)) * (e * e) \/
     n = N.to_nat (gd_max P) /\ l <= (1 - / (81920000 * (INR (length (s_cons s)) * INR (length (s_cons s))))) ^ n * l0).
Proof.
  intros V FD RC CF BN (kps & Pm & En) El Rm Elo Ee E. assert (E0 : lossv s h0 = l0) by (unfold lossv; now rewrite El).
  rewrite <- E0 in *. destruct (tree_run s h0 kps V FD RC CF BN Pm En Rm P h' n lo e E Elo Ee) as (Ho & R).
  exists (lossv s h'). split; [apply (ok_loss s h0 CF h' Ho)|exact R].
Qed.
