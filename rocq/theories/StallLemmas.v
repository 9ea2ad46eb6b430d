(** * Gauss-Newton does not move a sketch with a small Jacobian (C82) *)
From Coq Require Import List ZArith NArith Arith Bool Lia Sorted Reals Lra.
From Verif Require Import Arith Vec Prim Cons Sketch Solve Api Spec SolverSpec ArithR ExactSpec MotionSpec LinearSpec SlowSpec StallSpec
  HeapLemmas SolveLemmas WfLemmas DataLemmas SpecLemmas ExactLemmas DerivLemmas GradLemmas PureLemmas LossLemmas
  SearchLemmas StepLemmas RMat NlsMat ExactRun SolverForms RestLemmas ConserveLemmas MotionLemmas NlsDescent StayLemmas
  LinearLemmas LinearForms GraphLemmas RateLemmas SlowLemmas.
Import ListNotations.
Local Open Scope R_scope.

Lemma sub_zero n st : forall x, length x = n -> subL x (sclL st (repeat 0 n)) = x.
Proof.
  induction n as [|n IH]; intros [|a x] L; try discriminate; [reflexivity|]. injection L as L. unfold subL, sclL in *. simpl. rewrite IH by auto.
  f_equal. ring.
Qed.
Lemma psd n J : rows n J -> forall v, length v = n -> 0 <= dotL v (mulR (mmL n (trL n J) J) v).
Proof.
  intros RJ v L. change mulR with mulL. rewrite jtj_mul by auto. rewrite adjoint by (auto; apply mulL_length). apply dot_self_nonneg.
Qed.
Lemma normal_mm n J : normal_matrix n J = mmL n (trL n J) J.
Proof. unfold normal_matrix, mmL, trL. rewrite map_map. apply map_ext. intros i. rewrite map_map. reflexivity. Qed.
(** the step of Gauss-Newton with a pseudo-inverse that cuts at eps *)
Lemma step_cut pinv x w Jr eps st y : cutting_pinv pinv -> 0 <= eps ->
  length w = length Jr -> rows (length x) Jr ->
  nls_step pinv (FinV x) (FinV w) (FinM Jr) (gn_normal (length (FinV x)) (FinM Jr)) (Fin eps) (Fin st) = PInv y ->
  exists q, cut_inverse (length x) eps (mmL (length x) (trL (length x) Jr) Jr) q /\ y = FinV (subL x (sclL st (mulL q (mulL (trL (length x) Jr) w)))).
Proof.
  intros PI Pe Lw RJ. set (N := mmL _ _ _). unfold nls_step, gn_normal. rewrite !FinV_length, mtrans_R, mmul_R. fold N.
  assert (Sy : symmetric (length x) N) by (unfold N; now apply jtj_sym).
  destruct (pinv (FinM N) (Fin eps)) as [Q| |] eqn:E; try discriminate.
  destruct (PI _ _ _ _ Sy (psd _ _ RJ) Pe E) as (q & -> & T). intros X. injection X as <-. exists q. split; auto.
  change (map (map Fin) q) with (FinM q). rewrite mmul_R, mvec_R, vmuls_R, vsub_R. do 3 f_equal.
  apply mm_mul; auto.
  - rewrite Lw. apply trL_rows.
  - destruct T as (((Lq & Rq & _) & _) & _). rewrite trL_length. exact Rq.
Qed.
Lemma cut_small n eps J q : rows n J -> small_jacobian n eps J -> cut_inverse n eps (mmL n (trL n J) J) q ->
  forall v, length v = n -> mulL q v = repeat 0 n.
Proof.
  intros RJ Sm (T & Hl & _) v L. destruct (list_eq_dec Req_EM_T (mulL q v) (repeat 0 n)) as [E|Ne]; auto. exfalso.
  specialize (Hl v L Ne). change mulR with mulL in Hl. assert (Lq : length (mulL q v) = n) by (rewrite mulL_length; apply T).
  rewrite jtj_mul in Hl by auto. rewrite adjoint in Hl by (auto; apply mulL_length). specialize (Sm _ Lq). change mulR with mulL in Sm. lra.
Qed.

Section Stall.
Variables (s : sketch) (h0 : heap xR).
Hypothesis V : valid h0 s.
Hypothesis FD : finite_data h0 s.
Hypothesis CF : all_con_finite h0 s.
Hypothesis ND : forall k, In k (s_cons s) -> nondegenerate (cfg_of h0) h0 (getK h0 k).
Variable pinv : mat xR -> xR -> pinv_res (mat xR).
Hypothesis PI : cutting_pinv pinv.
Variables (eps st : R) (h1 : heap xR) (J : list (list R)).
Hypothesis Pe : 0 <= eps.
Hypothesis EJ : get_jacobian s h0 = (h1, Val (map (map Fin) J)).
Hypothesis Sm : small_jacobian (get_n_dofs h0 s) eps J.
Let n := get_n_dofs h0 s.
Let x := map vx (get_data h0 s).
Let w := map vx (get_loss_per_constraint h0 s).
Lemma J_rows : rows n J /\ length J = length w.
Proof.
  destruct (jac_here s h0 V CF ND) as (h1' & Jr & E & _ & R & L & _). change (map (map Fin) J) with (FinM J) in EJ.
  assert (Jr = J) as ->. { rewrite EJ in E. injection E as _ E. apply (f_equal (map (map vx))) in E.
    assert (X : forall a, map (map vx) (FinM a) = a). { intros a. unfold FinM, FinV. rewrite map_map. rewrite <- (map_id a) at 2. apply map_ext. intros r. apply map_vx_Fin. }
    now rewrite !X in E. }
  split; auto.
Qed.
Lemma stall_loop ml : forall k it l (h : heap xR), sdeq h0 h -> exists h' r, nls_loop pinv s gn_normal ml (Fin eps) (Fin st) k it l h = (h', r) /\ sdeq h0 h' /\
  ((exists Q, pinv (map (map Fin) (normal_matrix n J)) (Fin eps) = PInv Q) -> exists i, r = Val (SOk i)) /\
  (forall i, r = Val (SOk i) -> fgt l ml = true -> fgt (vsum (get_loss_per_constraint h0 s)) ml = true -> i = (it + k)%nat).
Proof.
  destruct J_rows as [RJ LJ].
  assert (Lx : length x = n) by (unfold x; rewrite map_length, get_data_length; reflexivity).
  assert (Ho := okh_init s h0 V FD).
  assert (Ex : get_data h0 s = FinV x) by exact (ok_data s h0 h0 Ho).
  assert (Ew : get_loss_per_constraint h0 s = FinV w) by exact (losses_R s h0 CF h0 Ho).
  induction k as [|k IH]; intros it l h S; cbn [nls_loop].
  - exists h, (Val (SOk it)). split; auto. split; auto. split; [eauto|]. intros i [= <-] _ _. lia.
  - destruct (fgt l ml) eqn:El; cbn [negb].
    2:{ exists h, (Val (SOk it)). split; auto. split; auto. split; [eauto|discriminate]. }
    unfold mbind at 1.
    assert (J2 : exists h2, get_jacobian s h = (h2, Val (FinM J)) /\ sdeq h0 h2).
    { destruct (C17_gradient_lemma h0 h s V) as [_ E]; [apply (proj1 (sdeq_iff h0 h)); auto..|]. rewrite EJ in E. cbn [snd] in E.
      assert (S' := get_jacobian_sd s h). destruct (get_jacobian s h) as [h2 r]. simpl in E, S'. subst r. exists h2. split; auto. eapply sd_pre; eauto. }
    destruct J2 as (h2 & -> & S2). rewrite (sd_get_data _ _ s S), (sd_get_losses _ _ s S), Ex, Ew.
    destruct (nls_step pinv _ _ _ _ _ _) as [y| |] eqn:Es.
    + destruct (step_cut pinv x w J eps st y PI Pe (eq_sym LJ)) as (q & T & ->); try rewrite Lx; auto.
      rewrite Lx in *. rewrite (cut_small n eps J q RJ Sm T) by (rewrite mulL_length; apply trL_length). rewrite (sub_zero n st x Lx).
      unfold mbind. assert (Ed : set_data s (FinV x) h2 = (h2, Val tt)).
      { destruct (set_data_ok s (FinV x) h2) as [h3 E3]; [rewrite FinV_length, Lx; unfold n; symmetry; apply n_dofs_any|apply finite_FinV|].
        assert (K : fst (set_data s (FinV x) h2) = h2).
        { unfold set_data, mbind, massert. rewrite FinV_length, Lx. replace (n =? get_n_dofs h2 s)%nat with true by (symmetry; apply Nat.eqb_eq, n_dofs_any).
          cbn [negb]. apply set_loop_keeps. change (Forall2 keeps (FinV x) (get_data h2 s)). rewrite (sd_get_data _ _ s S2), Ex.
          clear. induction (FinV x); constructor; auto. now left. }
        rewrite E3 in *. simpl in K. now subst. }
      rewrite Ed. destruct (IH (Datatypes.S it) (vsum (FinV w)) h2 S2) as (h' & r & E & S' & T1 & T2). exists h', r. rewrite E. split; auto. split; auto. split; auto.
      intros i Hi _ Hv. rewrite (T2 i Hi) by (rewrite ?Ew; auto). lia.
    + exists h2, (Val (SErr PseudoInverse)). split; auto. split; auto. split; [|discriminate].
      intros TP. exfalso. destruct TP as [Q EQ]. rewrite normal_mm in EQ. change (pinv (FinM (mmL n (trL n J) J)) (Fin eps) = PInv Q) in EQ. unfold nls_step, gn_normal in Es. rewrite !FinV_length, mtrans_R, mmul_R, Lx in Es.
      rewrite EQ in Es. discriminate.
    + exists h2, Panic. split; auto. split; auto. split; [|discriminate].
      intros TP. exfalso. destruct TP as [Q EQ]. rewrite normal_mm in EQ. change (pinv (FinM (mmL n (trL n J) J)) (Fin eps) = PInv Q) in EQ. unfold nls_step, gn_normal in Es. rewrite !FinV_length, mtrans_R, mmul_R, Lx in Es.
      rewrite EQ in Es. discriminate.
Qed.
End Stall.

Lemma C82_stall_lemma s (h : heap xR) pinv P eps st h1 J : valid h s -> finite_data h s -> all_con_finite h s ->
  (forall k, In k (s_cons s) -> nondegenerate (cfg_of h) h (getK h k)) -> cutting_pinv pinv ->
  gn_eps P = Fin eps -> 0 <= eps -> gn_step P = Fin st -> get_jacobian s h = (h1, Val (map (map Fin) J)) -> small_jacobian (get_n_dofs h s) eps J ->
  forall h' r, gn_run pinv s P h = (h', r) -> (forall c, prim_data h' c = prim_data h c) /\
    ((exists Q, pinv (map (map Fin) (normal_matrix (get_n_dofs h s) J)) (Fin eps) = PInv Q) -> exists i, r = Val (SOk i)) /\
    (forall i, r = Val (SOk i) -> fgt (get_loss h s) (gn_min_loss P) = true -> i = N.to_nat (gn_max P)).
Proof.
  intros V FD CF ND PI Ee Pe Es EJ Sm h' r. unfold gn_run. rewrite Ee, Es.
  destruct (stall_loop s h V FD CF ND pinv PI eps st h1 J Pe EJ Sm (gn_min_loss P) (N.to_nat (gn_max P)) 0 finf h (LossLemmas.sd_refl h)) as (h'' & r' & -> & S & A & B).
  intros [= <- <-]. split; [intros c; now apply S|]. split; auto. intros i Hi Hl. apply B; auto.
  - rewrite (proj1 (loss_total s h CF h (okh_init s h V FD))) in Hl. destruct (gn_min_loss P); simpl in *; auto.
  - rewrite (proj2 (loss_total s h CF h (okh_init s h V FD))). now rewrite (proj1 (loss_total s h CF h (okh_init s h V FD))) in Hl.
Qed.

(** ** linear sketches *)
Section Lin.
Variables (s : sketch) (h : heap xR).
Hypothesis V : valid h s.
Hypothesis FD : finite_data h s.
Hypothesis CF : all_con_finite h s.
Hypothesis LS : linear_sketch h s.
Let n := get_n_dofs h s.
Definition ind (b : bool) (a : R) : R := if b then a else 0.
Lemma acts_x k v wo : linear (getK h k) = true -> In (v, wo) (xedges h (getK h k) ++ yedges h (getK h k)) ->
  acts_on h v k = true /\ match wo with Some w => acts_on h w k = true | None => True end.
Proof.
  unfold acts_on. intros _. destruct (getK h k); simpl; intros H; repeat (destruct H as [H|H]; [injection H as <- <-|]); try tauto;
    simpl; rewrite ?Nat.eqb_refl, ?orb_true_r; auto.
Qed.
Lemma ind_nonneg (f : nat -> bool) (u : nat -> R) l : 0 <= sumR (map (fun p : nat => ind (f p) (sq (u p))) l).
Proof.
  induction l as [|p l IH]; simpl; [lra|]. assert (0 <= ind (f p) (sq (u p))) by (unfold ind; destruct (f p); [apply sq_nonneg|lra]). lra.
Qed.
Lemma edge_ind (u : nat -> R) k E : off (points s) u -> (length E <= 1)%nat ->
  (forall v wo, In (v, wo) E -> acts_on h v k = true /\ match wo with Some w => acts_on h w k = true | None => True end) ->
  energy E u <= 2 * sumR (map (fun p : nat => ind (acts_on h p k) (sq (u p))) (points s)).
Proof.
  intros Of L Ha. pose proof (ind_nonneg (fun p : nat => acts_on h p k) u (points s)) as P. cbv beta in P.
  destruct E as [|[v wo] [|]]; simpl in L; try lia; unfold energy; cbn [map]; [unfold sumR at 1; cbn [fold_right]; lra|].
  unfold sumR at 1. cbn [fold_right].
  destruct (Ha v wo (or_introl eq_refl)) as [A B].
  pose proof (edge_le (points s) (fun p : nat => ind (acts_on h p k) (u p)) (v, wo) (points_nodup s (valid_nd _ _ V))) as Q.
  assert (O' : off (points s) (fun p : nat => ind (acts_on h p k) (u p))) by (intros p Hp; unfold ind; destruct (acts_on h p k); auto).
  specialize (Q O'). cbn [fst snd] in *. 
  assert (E1 : ind (acts_on h v k) (u v) = u v) by (unfold ind; now rewrite A).
  assert (E2 : val (fun p : nat => ind (acts_on h p k) (u p)) wo = val u wo) by (destruct wo; simpl; auto; unfold ind; now rewrite B).
  rewrite E1, E2 in Q.
  replace (map (fun p : nat => ind (acts_on h p k) (sq (u p))) (points s)) with (map (fun v0 : nat => sq (ind (acts_on h v0 k) (u v0))) (points s)); [lra|].
  apply map_ext. intros p. unfold ind. destruct (acts_on h p k); auto. unfold sq. ring.
Qed.
Lemma curv_ind d k : In k (s_cons s) -> length d = n ->
  curvK s h d k <= sumR (map (fun p : nat => ind (acts_on h p k) (sq (cx (D_of (cells s) d) p) + sq (cy (D_of (cells s) d) p))) (points s)).
Proof.
  intros Hk Ld. destruct (D_off s d) as [Ox Oy]. unfold curvK. 
  pose proof (edge_ind (cx (D_of (cells s) d)) k (xedges h (getK h k)) Ox) as A. pose proof (edge_ind (cy (D_of (cells s) d)) k (yedges h (getK h k)) Oy) as B.
  specialize (A ltac:(destruct (getK h k); simpl; lia)). specialize (B ltac:(destruct (getK h k); simpl; lia)).
  specialize (A (fun v wo H => acts_x k v wo (LS k Hk) (in_or_app _ _ _ (or_introl H)))). specialize (B (fun v wo H => acts_x k v wo (LS k Hk) (in_or_app _ _ _ (or_intror H)))).
  set (X := fun p : nat => ind (acts_on h p k) (sq (cx (D_of (cells s) d) p))) in *. set (Y := fun p : nat => ind (acts_on h p k) (sq (cy (D_of (cells s) d) p))) in *.
  rewrite (map_ext _ (fun p : nat => X p + Y p)) by (intros p; unfold X, Y, ind; destruct (acts_on h p k); ring).
  rewrite sumR_plus. lra.
Qed.
Lemma sum_swap {A B} (f : A -> B -> R) l m : sumR (map (fun a => sumR (map (f a) m)) l) = sumR (map (fun b => sumR (map (fun a => f a b) l)) m).
Proof.
  induction l as [|a l IH]; simpl.
  - symmetry. change (sumR (map (fun _ : B => 0) m) = 0). rewrite sum_const. ring.
  - rewrite IH, <- sumR_plus. reflexivity.
Qed.
Lemma sum_ind (f : loc -> bool) a l : sumR (map (fun k => ind (f k) a) l) = INR (length (filter f l)) * a.
Proof.
  induction l as [|k l IH]; simpl; [ring|]. rewrite IH. unfold ind. destruct (f k); [|ring].
  change (length (k :: filter f l)) with (Datatypes.S (length (filter f l))). rewrite S_INR. ring.
Qed.
Lemma curv_sum D d : length d = n -> (forall p, In p (points s) -> (valence h s p <= D)%nat) ->
  sumR (map (curvK s h d) (s_cons s)) <= INR D * dotL d d.
Proof.
  intros Ld HD. pose proof (pts_le s h V d Ld) as P. set (f := fun p : nat => sq (cx (D_of (cells s) d) p) + sq (cy (D_of (cells s) d) p)).
  assert (E : sumR (map (curvK s h d) (s_cons s)) <= sumR (map (fun k => sumR (map (fun p : nat => ind (acts_on h p k) (f p)) (points s))) (s_cons s))).
  { apply sum_le. intros k Hk. apply curv_ind; auto. }
  rewrite sum_swap in E.
  rewrite (map_ext (fun p : nat => sumR (map (fun k => ind (acts_on h p k) (f p)) (s_cons s))) (fun p : nat => INR (valence h s p) * f p)) in E by (intros p; apply sum_ind).
  assert (E2 : sumR (map (fun p : nat => INR (valence h s p) * f p) (points s)) <= sumR (map (fun p : nat => INR D * f p) (points s))).
  { apply sum_le. intros p Hp. apply Rmult_le_compat_r; [unfold f; pose proof (sq_nonneg (cx (D_of (cells s) d) p)); pose proof (sq_nonneg (cy (D_of (cells s) d) p)); lra|].
    apply le_INR. auto. }
  rewrite sumR_scal in E2. unfold f in E2 at 2. rewrite sumR_plus in E2.
  assert (M := Rmult_le_compat_l (INR D) _ _ (pos_INR D) P). fold f in E. lra.
Qed.
Lemma lin_small D eps h1 J : (forall p, In p (points s) -> (valence h s p <= D)%nat) ->
  (forall k, In k (s_cons s) -> exists l, loss_value h (getK h k) = Fin l /\ 4 * INR D * l <= eps) -> 0 <= eps ->
  get_jacobian s h = (h1, Val (map (map Fin) J)) -> small_jacobian n eps J.
Proof.
  intros HD Hl Pe EJ d Ld. destruct (jac_here s h V CF (here_nd s h LS)) as (h1' & Jr & E & _ & R & L & P). change mulR with mulL.
  assert (Jr = J) as ->. { rewrite EJ in E. injection E as _ E. apply (f_equal (map (map vx))) in E. symmetry in E.
    assert (X : forall a, map (map vx) (FinM a) = a). { intros a. unfold FinM, FinV. rewrite map_map. rewrite <- (map_id a) at 2. apply map_ext. intros r. apply map_vx_Fin. }
    change (map (map Fin) J) with (FinM J) in E. now rewrite !X in E. }
  rewrite (P d Ld), <- dot_map2_sum.
  destruct (Nat.eq_dec D 0) as [Z|NZ].
  - (* no constraint acts on any point *)
    assert (C := curv_sum D d Ld HD). rewrite Z in C. simpl in C.
    assert (C0 : forall k, In k (s_cons s) -> curvK s h d k <= 0).
    { intros k Hk. eapply Rle_trans; [apply curv_ind; auto|]. rewrite <- (Rmult_0_r (INR (length (points s)))), <- sum_const. apply sum_le.
      intros p Hp. specialize (HD p Hp). unfold valence in HD. rewrite Z in HD.
      assert (A : acts_on h p k = false). { destruct (acts_on h p k) eqn:A; auto. exfalso.
        assert (I : In k (filter (acts_on h p) (s_cons s))) by (apply filter_In; auto). destruct (filter _ _); simpl in *; [easy|lia]. }
      unfold ind. rewrite A. lra. }
    assert (0 <= eps * dotL d d) by (apply Rmult_le_pos; auto; apply dot_self_nonneg).
    apply (Rle_trans _ (sumR (map (fun _ => 0) (s_cons s)))); [|rewrite sum_const; lra].
    apply sum_le. intros k Hk. pose proof (con_disc s h V CF LS d k Ld Hk) as Q. pose proof (curvK_nonneg s h d k). pose proof (C0 k Hk).
    assert (X : curvK s h d k = 0) by lra. rewrite X in Q. unfold slopeK in Q. lra.
  - assert (PD : 0 < INR D) by (apply lt_0_INR; lia).
    apply (Rle_trans _ (sumR (map (fun k => eps / INR D * curvK s h d k) (s_cons s)))).
    + apply sum_le. intros k Hk. pose proof (con_disc s h V CF LS d k Ld Hk) as Q. unfold slopeK in Q. eapply Rle_trans; [exact Q|].
      apply Rmult_le_compat_r; [apply curvK_nonneg|]. destruct (Hl k Hk) as (l & El & B). unfold lossK. rewrite El. simpl.
      apply (Rmult_le_reg_r (INR D)); auto. replace (eps / INR D * INR D) with eps by (field; lra). lra.
    + rewrite sumR_scal. assert (C := curv_sum D d Ld HD). assert (0 <= eps / INR D) by (apply Rmult_le_pos; auto; left; now apply Rinv_0_lt_compat).
      eapply Rle_trans; [apply Rmult_le_compat_l; [auto|exact C]|]. right. field. lra.
Qed.
End Lin.
Lemma C82_linear_lemma s (h : heap xR) pinv P eps st D : valid h s -> finite_data h s -> all_con_finite h s -> linear_sketch h s -> cutting_pinv pinv ->
  gn_eps P = Fin eps -> 0 <= eps -> gn_step P = Fin st ->
  (forall p, In p (points s) -> (valence h s p <= D)%nat) ->
  (forall k, In k (s_cons s) -> exists l, loss_value h (getK h k) = Fin l /\ 4 * INR D * l <= eps) ->
  forall h' r, gn_run pinv s P h = (h', r) -> (forall c, prim_data h' c = prim_data h c) /\
    (forall h1 J, get_jacobian s h = (h1, Val (map (map Fin) J)) -> (exists Q, pinv (map (map Fin) (normal_matrix (get_n_dofs h s) J)) (Fin eps) = PInv Q) -> exists i, r = Val (SOk i)) /\
    (forall i, r = Val (SOk i) -> fgt (get_loss h s) (gn_min_loss P) = true -> i = N.to_nat (gn_max P)).
Proof.
  intros V FD CF LS PI Ee Pe Es HD Hl. destruct (jac_here s h V CF (here_nd s h LS)) as (h1 & J & EJ & _).
  intros h' r R. assert (G : forall h1 J, get_jacobian s h = (h1, Val (map (map Fin) J)) -> _) by
    (intros h2 J2 E2; exact (C82_stall_lemma s h pinv P eps st h2 J2 V FD CF (here_nd s h LS) PI Ee Pe Es E2 (lin_small s h V CF LS D eps h2 J2 HD Hl Pe E2) h' r R)).
  destruct (G h1 J EJ) as (A & _ & B). split; [exact A|]. split; [|exact B]. intros h2 J2 E2. exact (proj1 (proj2 (G h2 J2 E2))).
Qed.
