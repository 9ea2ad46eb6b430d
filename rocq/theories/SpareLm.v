(** * Unconstrained primitives and Levenberg-Marquardt in exact arithmetic (for C95) *)
From Coq Require Import List ZArith NArith Arith Bool Lia Reals Lra.
From Verif Require Import Arith Vec Prim Cons Sketch Solve Api Spec HeapLemmas SolveLemmas BookLemmas WfLemmas DataLemmas SpecLemmas PureLemmas
  ArithR ExactSpec MotionSpec StallSpec ExactLemmas RMat NlsMat GradLemmas LossLemmas SearchLemmas RestLemmas StepLemmas StayLemmas ExactRun ConserveLemmas SymLemmas SpareSpec SpareLemmas SpareForms SpareBfgs.
Import ListNotations.

(** ** The Jacobian has columns of zeros for the other primitives *)
Section J.
Context {F : Type} {A : Arith F}.
Variables (s s' : sketch) (h0 : heap F).
Hypothesis V : valid h0 s.
Hypothesis V' : valid h0 s'.
Hypothesis W : with_spare h0 s s'.
Notation keep := (has_cell s).
Notation cs := (cells s').
Notation Zb := (fun c => repeat f0 (dim c)).
Lemma jrows_T ks : incl ks (s_cons s) -> rel s s' h0 (Forall2 (pads keep Zb cs)) (jacobian_rows s ks) (jacobian_rows s' ks).
Proof.
  induction ks as [|k ks IH]; intros Hi; cbn [jacobian_rows]; [apply rel_ret; constructor|]. intros h1 h2 H.
  pose proof W as (Ec & Es & _).
  assert (S1 : sdeq h1 (zero_all s h1)) by apply zero_all_sd. assert (S2 : sdeq h2 (zero_all s' h2)) by apply zero_all_sd.
  assert (G0 : grel (cells s) (zero_all s h1) (zero_all s' h2)).
  { split; [eapply sd_pre; [apply sd_sym, S1|]; eapply sd_pre; [apply H | exact S2]|].
    intros c Hc. unfold zero_all. destruct (zero_list (cells s) h1) as [Z1 _]; [intros x Hx; apply (T_ok s s' h0 V' h1 h2); auto; now apply (cells_sub s s' h0 W)|].
    destruct (zero_list (cells s') h2) as [Z2 _]; [intros x Hx; eapply cell_ok_sd; [apply H|]; now apply (T_ok s s' h0 V' h1 h2)|].
    rewrite Z1, Z2; auto. now apply (cells_sub s s' h0 W). }
  assert (Z0 : forall c, In c cs -> prim_grad (zero_all s' h2) c = Zb c).
  { intros c Hc. apply zero_list; auto. intros x Hx. eapply cell_ok_sd; [apply H|]. now apply (T_ok s s' h0 V' h1 h2). }
  assert (T0 : T s s' h0 (zero_all s h1) (zero_all s' h2)) by now apply (T_sd s s' h0 h1 h2).
  revert G0 Z0 T0. clear S1 S2. generalize (zero_all s h1) (zero_all s' h2). clear h1 h2 H. intros h1 h2 G0 Z0 T0.
  assert (G1 : same_out (cells s) (update_gradient (getK h1 k) h1) (update_gradient (getK h2 k) h2)).
  { rewrite (struct_getK _ _ _ (proj1 (proj1 G0))). now apply update_rel. }
  assert (S0 : struct_eq h0 h2) by (eapply struct_pre; [apply T0 | apply (proj1 T0)]).
  assert (N : forall c, In c cs -> keep c = false -> prim_grad (fst (update_gradient (getK h2 k) h2)) c = Zb c).
  { intros c Hc Hk. rewrite <- (Z0 c Hc). apply update_other.
    rewrite (struct_getK _ _ _ S0). unfold deps. rewrite (flat_map_ext _ (fun r => r :: prim_refs h0 r)) by (intros r; now rewrite (struct_refs _ _ _ S0)).
    apply (sp_un s s' h0 V V' W); auto. apply Hi. now left. }
  assert (U1 := update_sd (getK h1 k) h1). assert (U2 := update_sd (getK h2 k) h2).
  unfold mbind, mret. destruct (update_gradient (getK h1 k) h1) as [k1 o1], (update_gradient (getK h2 k) h2) as [k2 o2].
  destruct G1 as [Eo Gr]. cbn [fst snd] in *. subst o2.
  assert (T1 : T s s' h0 k1 k2) by now apply (T_sd s s' h0 h1 h2).
  destruct o1; [|now split].
  destruct (IH (fun x Hx => Hi x (or_intror Hx)) k1 k2 T1) as [T2 O].
  destruct (jacobian_rows s ks k1) as [i1 [r1|]], (jacobian_rows s' ks k2) as [i2 [r2|]]; cbn [fst snd outrel] in *; try contradiction; [|now split].
  split; [exact T2|]. constructor; [|exact O]. unfold stored_gradient. rewrite Es. apply pads_flat; [intros; apply prim_grad_dim | | exact N].
  intros c Hc Hk. symmetry. apply Gr. now apply (keep_iff s).
Qed.
Lemma jac_T : rel s s' h0 (Forall2 (pads keep Zb cs)) (get_jacobian s) (get_jacobian s').
Proof. unfold get_jacobian. rewrite (proj1 W). apply jrows_T, incl_refl. Qed.
Lemma losses_T h1 h2 : T s s' h0 h1 h2 -> get_loss_per_constraint h2 s' = get_loss_per_constraint h1 s.
Proof.
  intros (E & _). unfold get_loss_per_constraint. rewrite (proj1 W). apply map_ext. intros k.
  rewrite (struct_getK _ _ _ (proj1 E)). now apply sd_loss.
Qed.
End J.

(** ** The damped normal equations *)
Local Open Scope R_scope.
Section X.
Variables (keep : pcell -> bool) (cs : list pcell).
Notation Z0 := (fun c => repeat 0 (dim c)).
Notation pd := (pads keep Z0 cs).
Notation n := (dims (filter keep cs)).
Notation n' := (dims cs).
Lemma pd_zero : pd (repeat 0 n) (repeat 0 n').
Proof.
  clear. induction cs as [|c l IH]; [constructor|]. cbn [filter]. change (dims (c :: l)) with (dim c + dims l)%nat. rewrite repeat_app.
  destruct (keep c) eqn:E.
  - change (dims (c :: filter keep l)) with (dim c + dims (filter keep l))%nat. rewrite repeat_app. constructor; auto. apply repeat_length.
  - apply (pd_skip keep Z0); auto.
Qed.
Lemma pd_ex : forall y, length y = n -> exists y', pd y y'.
Proof.
  clear. induction cs as [|c l IH]; intros y L.
  - destruct y; [|discriminate]. exists []. constructor.
  - cbn [filter] in L. destruct (keep c) eqn:E.
    + change (dims (c :: filter keep l)) with (dim c + dims (filter keep l))%nat in L.
      destruct (IH (skipn (dim c) y)) as (y' & P); [rewrite skipn_length; lia|].
      exists (firstn (dim c) y ++ y'). rewrite <- (firstn_skipn (dim c) y) at 1. constructor; auto. rewrite firstn_length. lia.
    + destruct (IH y L) as (y' & P). exists (Z0 c ++ y'). now apply (pd_skip keep Z0).
Qed.
Lemma app_len_inj (x : list R) : forall y u v, length x = length y -> x ++ u = y ++ v -> x = y /\ u = v.
Proof. induction x as [|a x IH]; intros [|b y] u v L E; try discriminate; [auto|]. injection L as L. injection E as -> E. destruct (IH y u v L E) as [-> ->]. auto. Qed.
Lemma pd_fun u v v' : pd u v -> pd u v' -> v = v'.
Proof.
  intros P. revert v'. induction P as [|c l x u v Hk Hl P IH|c l u v Hk P IH]; intros v' Q; inversion Q as [|c1 l1 x1 u1 v1 Hk1 Hl1 Q1 E1 E2|c1 l1 u1 v1 Hk1 Q1]; subst; try congruence.
  - assert (x1 = x /\ u1 = u) as [-> ->].
    { apply app_len_inj; [congruence | exact E2]. }
    f_equal. now apply IH.
  - f_equal. now apply IH.
Qed.
Lemma pd_mulJ J J' u v : Forall2 pd J J' -> pd u v -> mulL J' v = mulL J u.
Proof. intros H P. induction H as [|r r' J J' Hr HJ IH]; [reflexivity|]. cbn [mulL map]. rewrite (pd_dot keep cs r r' u v Hr P). f_equal. exact IH. Qed.
Lemma pd_comb J J' : Forall2 pd J J' -> forall w, length w = length J -> pd (mulL (trL n J) w) (mulL (trL n' J') w).
Proof.
  induction 1 as [|r r' J J' Hr HJ IH]; intros w L.
  - destruct w; [|discriminate]. rewrite !tr_nil by reflexivity. apply pd_zero.
  - destruct w as [|a w]; [discriminate|]. destruct (pd_len keep cs r r' Hr) as [L1 L2]. rewrite !tr_cons by auto.
    apply pd_add; [now apply pd_scl|]. apply IH. now injection L.
Qed.
Lemma pd_norm b J J' u v : Forall2 pd J J' -> rows n J -> rows n' J' -> pd u v -> pd (mulL (normL b n J) u) (mulL (normL b n' J') v).
Proof.
  intros H R1 R2 P. destruct (pd_len keep cs u v P) as [L1 L2]. rewrite !norm_mul by auto. rewrite (pd_mulJ J J' u v H P).
  apply pd_add; [|now apply pd_scl]. apply pd_comb; auto. apply mulL_length.
Qed.
End X.
Lemma pd_rows keep cs J J' : Forall2 (pads keep (fun c => repeat 0 (dim c)) cs) J J' -> rows (dims (filter keep cs)) J /\ rows (dims cs) J'.
Proof. induction 1 as [|r r' J J' Hr HJ [I1 I2]]; [split; constructor|]. destruct (pd_len keep cs r r' Hr). split; constructor; auto. Qed.

Lemma mul_sub_r (m : list (list R)) u v : length u = length v -> mulL m (subL u v) = subL (mulL m u) (mulL m v).
Proof.
  intros L. induction m as [|r m IH]; [reflexivity|].
  change (mulL (r :: m) (subL u v)) with (dotL r (subL u v) :: mulL m (subL u v)). rewrite IH, dot_sub_r by exact L. reflexivity.
Qed.
(** a pseudo-inverse that drops nothing is the inverse *)
Section I.
Variables (n : nat) (J : list (list R)) (b eps : R) (q : list (list R)).
Hypothesis RJ : rows n J.
Hypothesis Hb : eps < b.
Hypothesis C : cut_inverse n eps (normL b n J) q.
Lemma zero_of w : dotL w w = 0 -> w = repeat 0 (length w).
Proof.
  intros E. pose proof (dot_self_zero w E) as X. clear E. induction w as [|x w IH]; [reflexivity|]. cbn [length repeat].
  rewrite (X x (or_introl eq_refl)) at 1. f_equal. apply IH. intros y Hy. apply X. now right.
Qed.
Lemma norm_form w : length w = n -> dotL w (mulL (normL b n J) w) = dotL (mulL J w) (mulL J w) + b * dotL w w.
Proof.
  intros L. rewrite norm_mul by auto. rewrite dot_add_r by (rewrite sclL_length, mulL_length, trL_length; auto).
  rewrite dot_scl_r, (adjoint n) by (auto; apply mulL_length). reflexivity.
Qed.
Lemma q_zero w : length w = n -> mulL q w = repeat 0 n -> w = repeat 0 n.
Proof.
  intros L E. destruct C as (_ & _ & H). specialize (H w L E). change mulR with mulL in H. rewrite norm_form in H by exact L.
  pose proof (dot_self_nonneg (mulL J w)). pose proof (dot_self_nonneg w). rewrite <- L. apply zero_of. nra.
Qed.
Lemma q_inv v : length v = n -> mulL (normL b n J) (mulL q v) = v.
Proof.
  intros L. pose proof C as (((Lq & Rq & Sq) & Q1 & Q2) & _). change mulR with mulL in *.
  pose proof (norm_sym n J RJ b) as (La & Ra & _).
  set (a := normL b n J) in *. set (d := subL (mulL a (mulL q v)) v).
  assert (Ld : length d = n) by (unfold d; rewrite subL_length; rewrite mulL_length; congruence).
  assert (E : mulL q d = repeat 0 n).
  { assert (X : mulL q d = subL (mulL q (mulL a (mulL q v))) (mulL q v)).
    { apply mul_sub_r. rewrite mulL_length. congruence. }
    rewrite X, Q1 by exact L. assert (Lm : length (mulL q v) = n) by (rewrite mulL_length; exact Lq). rewrite <- Lm.
    clear. generalize (mulL q v). induction l as [|x l IH]; [reflexivity|]. cbn [length repeat]. unfold subL in *. cbn [map2]. rewrite IH. f_equal. lra. }
  apply q_zero in E; auto. unfold d in E. 
  assert (Lm : length (mulL a (mulL q v)) = length v) by (rewrite mulL_length; congruence).
  rewrite <- L in E. revert Lm E. generalize (mulL a (mulL q v)). clear. intros y. revert y. induction v as [|x v IH]; intros [|z y] L E; try discriminate; [reflexivity|].
  injection E as E1 E2. injection L as L. f_equal; [lra|]. now apply IH.
Qed.
Lemma q_inv' v : length v = n -> mulL q (mulL (normL b n J) v) = v.
Proof. intros L. pose proof C as ((_ & _ & Q2) & _). change mulR with mulL in *. rewrite Q2 by exact L. now apply q_inv. Qed.
End I.

(** ** Levenberg-Marquardt *)
Section L.
Variables (s s' : sketch) (h0 : heap xR).
Hypothesis V : valid h0 s.
Hypothesis V' : valid h0 s'.
Hypothesis W : with_spare h0 s s'.
Hypothesis FD : forall c, In c (cells s') -> all_finite (prim_data h0 c) = true.
Hypothesis CF : all_con_finite h0 s.
Variable pinv : mat xR -> xR -> pinv_res (mat xR).
Variables (eps st : R).
Notation keep := (has_cell s).
Notation cs := (cells s').
Lemma pads_step x y u v : pads keep (prim_data h0) cs (FinV x) (FinV y) -> pads keep (fun c => repeat 0 (dim c)) cs u v ->
  pads keep (prim_data h0) cs (FinV (subL x (sclL st u))) (FinV (subL y (sclL st v))).
Proof.
  intros P Q. rewrite <- !vsub_R.
  pose proof (pd_to keep cs (Fin 0) _ _ eq_refl (pd_scl keep cs st _ _ Q)) as Q'.
  eapply pads_ext; [|apply (pads_map2 keep fsub _ _ _ (fun c _ _ => eq_trans (prim_data_dim h0 c) (eq_sym (repeat_length _ _))) _ _ _ _ P Q')].
  intros c Hc _. cbv beta. pose proof (FD c Hc) as Fc. rewrite <- (prim_data_dim h0 c). revert Fc. unfold all_finite. generalize (prim_data h0 c).
  induction v0 as [|x0 l IH]; [reflexivity|]. cbn [length repeat map2 forallb]. intros Fc. apply andb_true_iff in Fc as [F1 F2]. rewrite <- IH by exact F2.
  destruct x0; try discriminate. f_equal. cbn. f_equal. lra.
Qed.
Variable normal : nat -> mat xR -> mat xR.
Hypothesis HS : forall x x' w Jr Jr' y y', pads keep (prim_data h0) cs (FinV x) (FinV x') -> length w = length Jr ->
  Forall2 (pads keep (fun c => repeat 0 (dim c)) cs) Jr Jr' ->
  nls_step pinv (FinV x) (FinV w) (FinM Jr) (normal (length (FinV x)) (FinM Jr)) (Fin eps) (Fin st) = PInv y ->
  nls_step pinv (FinV x') (FinV w) (FinM Jr') (normal (length (FinV x')) (FinM Jr')) (Fin eps) (Fin st) = PInv y' -> pads keep (prim_data h0) cs y y'.
Lemma nls_pads ml fuel : forall it l h1 h2, T s s' h0 h1 h2 -> okh s h0 h1 -> forall k1 k2 i j,
  nls_loop pinv s (normal) ml (Fin eps) (Fin st) fuel it l h1 = (k1, Val (SOk i)) ->
  nls_loop pinv s' (normal) ml (Fin eps) (Fin st) fuel it l h2 = (k2, Val (SOk j)) -> j = i /\ T s s' h0 k1 k2.
Proof.
  induction fuel as [|f IH]; intros it l h1 h2 H Ho k1 k2 i j; cbn [nls_loop].
  - intros [= <- <-] [= <- <-]. auto.
  - destruct (negb _); [intros [= <- <-] [= <- <-]; auto|]. cbv zeta.
    destruct (jac_T s s' h0 V V' W h1 h2 H) as [T1 O]. unfold mbind.
    destruct (get_jacobian s h1) as [i1 [J|]] eqn:EJ, (get_jacobian s' h2) as [i2 [J'|]] eqn:EJ'; cbn [fst snd outrel] in *; try contradiction; try discriminate.
    assert (G : good s h1).
    { apply not_panic_good; [now apply (ok_valid s h0 V) | now apply (ok_fin s h0 CF)|]. right. rewrite EJ. discriminate. }
    assert (Fj : exists Jr, J = FinM Jr /\ length Jr = length (s_cons s)).
    { assert (Vh := ok_valid s h0 V h1 Ho).
      destruct (jacobian_ok s h1 (valid_nd _ _ Vh) (valid_cells _ _ Vh) G (s_cons s) (incl_refl _) h1) as (i' & Jr & E2 & _ & FJ);
        [split; [apply struct_pre | intros ? ?; reflexivity]|].
      unfold get_jacobian in EJ. rewrite EJ in E2. injection E2 as _ ->. exists Jr. split; [reflexivity|]. symmetry. eapply Forall2_length; eauto. }
    destruct Fj as (Jr & -> & LJ).
    assert (Fj' : exists Jr', J' = FinM Jr' /\ Forall2 (pads keep (fun c => repeat 0 (dim c)) cs) Jr Jr').
    { clear - O. unfold FinM in O. revert J' O. induction Jr as [|r Jr IH]; intros J' O; inversion O as [|r0 r' J0 J1 Hr HJ]; subst.
      - exists []. split; [reflexivity|constructor].
      - destruct (IH _ HJ) as (Jr' & -> & I). destruct (pd_of keep cs f0 (FinV r) r' f0_R Hr (finite_FinV r)) as (x & x' & E & -> & P).
        apply FinV_inj in E as <-. exists (x' :: Jr'). split; [reflexivity|]. now constructor. }
    destruct Fj' as (Jr' & -> & FJ).
    pose proof (data_T s s' h0 W h1 h2 H) as PD.
    assert (Fx : all_finite (get_data h1 s) = true) by apply Ho.
    assert (Fx' : all_finite (get_data h2 s') = true) by (apply (pads_fin _ _ _ _ _ FD PD Fx)).
    rewrite (FinV_vx _ Fx), (FinV_vx _ Fx') in *. set (x := map vx (get_data h1 s)) in *. set (x' := map vx (get_data h2 s')) in *.
    rewrite (losses_T s s' h0 W h1 h2 H). rewrite (losses_R s h0 CF h1 Ho). set (w := map vx (get_loss_per_constraint h1 s)).
    assert (Lw : length w = length Jr) by (unfold w, get_loss_per_constraint; rewrite !map_length; congruence).
    destruct (nls_step pinv (FinV x) _ _ _ _ _) as [y| |] eqn:E1; try discriminate.
    destruct (nls_step pinv (FinV x') _ _ _ _ _) as [y'| |] eqn:E2; try (intros; discriminate).
    pose proof (HS _ _ _ _ _ _ _ PD Lw FJ E1 E2) as Ps.
    destruct (set_T s s' h0 W (fun c Hc _ => FD c Hc) _ _ Ps i1 i2 T1) as [T2 O2].
    destruct (set_data s _ i1) as [m1 [[]|]] eqn:Em, (set_data s' _ i2) as [m2 [[]|]]; cbn [fst snd outrel] in *; try contradiction; try discriminate.
    apply IH; [exact T2|]. assert (Oi : okh s h0 i1) by (eapply ok_sd; [eapply jacobian_sd; eauto | exact Ho]).
    apply (ok_set s h0 V _ _ _ (proj1 Oi) Em).
Qed.
End L.

Lemma lm_step_R pinv b eps st n x w Jr y : cutting_pinv pinv -> 0 <= eps < b -> length x = n -> length w = length Jr -> rows n Jr ->
  nls_step pinv (FinV x) (FinV w) (FinM Jr) (lm_normal (Fin b) (length (FinV x)) (FinM Jr)) (Fin eps) (Fin st) = PInv y ->
  exists q, cut_inverse n eps (normL b n Jr) q /\ y = FinV (subL x (sclL st (mulL q (mulL (trL n Jr) w)))).
Proof.
  intros PI He Lx Lw RJ. unfold nls_step. rewrite FinV_length, Lx. unfold lm_normal. rewrite mtrans_R, mmul_R, mident_R, mscale_R, madd_R. fold (normL b n Jr).
  destruct (pinv (FinM (normL b n Jr)) (Fin eps)) as [Q| |] eqn:E; try discriminate.
  assert (Ps : forall v, length v = n -> 0 <= dotL v (mulR (normL b n Jr) v)).
  { intros v Lv. change mulR with mulL. rewrite norm_form by auto. pose proof (dot_self_nonneg (mulL Jr v)). pose proof (dot_self_nonneg v). nra. }
  destruct (PI n _ _ _ (norm_sym n Jr RJ b) Ps (proj1 He) E) as (q & -> & T).
  intros X. injection X as <-. exists q. split; [exact T|].
  change (map (map Fin) q) with (FinM q). rewrite FinV_length, mmul_R, mvec_R, vmuls_R, vsub_R. do 3 f_equal.
  apply mm_mul; auto.
  - rewrite Lw. apply trL_rows.
  - destruct T as (((Lq & Rq & _) & _) & _). rewrite trL_length. exact Rq.
Qed.
Lemma lm_pads s s' (h0 : heap xR) pinv b eps st : (forall c, In c (cells s') -> all_finite (prim_data h0 c) = true) -> cutting_pinv pinv -> 0 <= eps < b ->
  forall x x' w Jr Jr' y y', pads (has_cell s) (prim_data h0) (cells s') (FinV x) (FinV x') -> length w = length Jr ->
  Forall2 (pads (has_cell s) (fun c => repeat 0 (dim c)) (cells s')) Jr Jr' ->
  nls_step pinv (FinV x) (FinV w) (FinM Jr) (lm_normal (Fin b) (length (FinV x)) (FinM Jr)) (Fin eps) (Fin st) = PInv y ->
  nls_step pinv (FinV x') (FinV w) (FinM Jr') (lm_normal (Fin b) (length (FinV x')) (FinM Jr')) (Fin eps) (Fin st) = PInv y' ->
  pads (has_cell s) (prim_data h0) (cells s') y y'.
Proof.
  intros FD PI He x x' w Jr Jr' y y' PD Lw FJ E1 E2. set (keep := has_cell s) in *. set (cs := cells s') in *.
  destruct (pd_rows keep cs Jr Jr' FJ) as [RJ RJ']. destruct (data_len keep cs h0 _ _ PD) as [Lx Lx']. rewrite FinV_length in Lx, Lx'.
  assert (Lw' : length w = length Jr') by (rewrite Lw; eapply Forall2_length; eauto).
  apply (lm_step_R _ _ _ _ _ _ _ _ _ PI He Lx Lw RJ) in E1 as (q & C & ->). apply (lm_step_R _ _ _ _ _ _ _ _ _ PI He Lx' Lw' RJ') in E2 as (q' & C' & ->).
  set (g := mulL (trL _ Jr) w). set (g' := mulL (trL _ Jr') w).
  assert (Pg : pads keep (fun c => repeat 0 (dim c)) cs g g') by now apply pd_comb.
  destruct (pd_len keep cs g g' Pg) as [Lg Lg'].
  assert (Lq : length (mulL q g) = dims (filter keep cs)) by (rewrite mulL_length; apply C).
  destruct (pd_ex keep cs (mulL q g) Lq) as (z & Pz). destruct (pd_len keep cs _ _ Pz) as [_ Lz].
  pose proof (pd_norm keep cs b Jr Jr' _ _ FJ RJ RJ' Pz) as Pn. rewrite (q_inv _ Jr b eps q RJ (proj2 He) C g Lg) in Pn.
  assert (Eg : g' = mulL (normL b (dims cs) Jr') z) by exact (pd_fun keep cs _ _ _ Pg Pn).
  assert (Eq : mulL q' g' = z) by (rewrite Eg; now apply (q_inv' _ Jr' b eps q' RJ' (proj2 He) C')).
  rewrite Eq. now apply (pads_step s s' h0 FD).
Qed.
Lemma C95_lm_lemma pinv P b eps st (h : heap xR) s s' : valid h s -> valid h s' -> finite_data h s' -> all_con_finite h s -> with_spare h s s' ->
  cutting_pinv pinv -> lm_beta P = Fin b -> lm_eps P = Fin eps -> lm_step P = Fin st -> 0 <= eps < b -> forall h1 h2 i j,
  lm_run pinv s P h = (h1, Val (SOk i)) -> lm_run pinv s' P h = (h2, Val (SOk j)) -> j = i /\ forall c, prim_data h2 c = prim_data h1 c.
Proof.
  intros V V' Fd CF W PI Eb Ee Es He h1 h2 i j. unfold lm_run. rewrite Eb, Ee, Es.
  assert (FD : forall c, In c (cells s') -> all_finite (prim_data h c) = true).
  { intros c Hc. apply forallb_forall. apply Forall_forall. apply Fd. now apply (valid_reg _ _ _ V'). }
  intros E1 E2.
  assert (T0 : T s s' h h h) by (split; [split; [apply struct_pre | intros ? ?; reflexivity]|]; split; [apply struct_pre | auto]).
  assert (O0 : okh s h h).
  { split; [apply frame_refl|]. unfold get_data, all_finite. rewrite forallb_forall. intros x Hx. apply in_flat_map in Hx as (c & Hc & Hx).
    apply (cells_sub s s' h W) in Hc. specialize (FD c Hc). unfold all_finite in FD. rewrite forallb_forall in FD. auto. }
  destruct (nls_pads s s' h V V' W FD CF pinv eps st _ (lm_pads s s' h pinv b eps st FD PI He) _ _ _ _ h h T0 O0 _ _ _ _ E1 E2) as [E (S & _)].
  split; [exact E|]. intros c. apply (proj2 S c I).
Qed.

(** ** Gauss-Newton *)
Section G.
Variables (n : nat) (J a q : list (list R)).
Hypothesis RJ : rows n J.
Hypothesis Sa : symmetric n a.
Hypothesis Ha : forall v, length v = n -> mulL a v = mulL (trL n J) (mulL J v).
Hypothesis C : full_inverse n a q.
Lemma a_len v : length (mulL a v) = n. Proof. rewrite mulL_length. apply Sa. Qed.
Lemma qq_len v : length (mulL q v) = n. Proof. rewrite mulL_length. apply C. Qed.
Lemma sub_self0 (u : list R) : subL u u = repeat 0 (length u).
Proof. induction u as [|x u IH]; [reflexivity|]. cbn [length repeat]. unfold subL in *. cbn [map2]. rewrite IH. f_equal. lra. Qed.
Lemma sub_zero_eq u : forall v, length u = length v -> subL u v = repeat 0 (length v) -> u = v.
Proof. induction u as [|x u IH]; intros [|y v] L E; try discriminate; [reflexivity|]. injection L as L. injection E as E1 E2. f_equal; [lra|]. now apply IH. Qed.
Lemma dot_ext u v : length u = n -> length v = n -> (forall x, length x = n -> dotL x u = dotL x v) -> u = v.
Proof.
  intros L1 L2 H. apply sub_zero_eq; [congruence|]. assert (Ls : length (subL u v) = length v) by (rewrite subL_length; congruence).
  rewrite <- Ls. apply zero_of. rewrite dot_sub_r by congruence. rewrite H by congruence. lra.
Qed.
Lemma full_row v : length v = n -> mulL J (mulL q (mulL a v)) = mulL J v.
Proof.
  intros L. pose proof C as [_ Q3]. change mulR with mulL in Q3. set (y := subL (mulL q (mulL a v)) v).
  assert (Ly : length y = n) by (unfold y; rewrite subL_length; rewrite qq_len; auto).
  assert (Ey : mulL a y = repeat 0 n).
  { unfold y. rewrite mul_sub_r by (rewrite qq_len; auto). rewrite Q3, sub_self0, a_len by exact L. reflexivity. }
  assert (Dy : dotL (mulL J y) (mulL J y) = 0).
  { rewrite <- (adjoint n y Ly J (mulL J y) RJ (mulL_length _ _)), <- Ha, Ey by exact Ly. apply dot_repeat0. }
  apply zero_of in Dy. unfold y in Dy. rewrite mul_sub_r in Dy by (rewrite qq_len; auto).
  apply sub_zero_eq; [now rewrite !mulL_length|]. rewrite Dy, subL_length; now rewrite !mulL_length.
Qed.
Lemma full_rhs w : length w = length J -> mulL a (mulL q (mulL (trL n J) w)) = mulL (trL n J) w.
Proof.
  intros Lw. set (g := mulL (trL n J) w). assert (Lg : length g = n) by (unfold g; rewrite mulL_length; apply trL_length).
  pose proof Sa as (_ & _ & Ss). pose proof C as (((_ & _ & Sq) & _) & _). change mulR with mulL in *.
  apply dot_ext; [apply a_len | exact Lg|]. intros x Lx. rewrite (Ss x (mulL q g) Lx (qq_len g)), dot_comm.
  rewrite (Sq (mulL a x) g (a_len x) Lg), dot_comm. unfold g.
  rewrite (adjoint n _ (qq_len (mulL a x)) J w RJ Lw), (adjoint n x Lx J w RJ Lw). now rewrite full_row.
Qed.
End G.

Lemma gn_step_R pinv eps st n x w Jr y : full_pinv pinv -> length x = n -> length w = length Jr -> rows n Jr ->
  nls_step pinv (FinV x) (FinV w) (FinM Jr) (gn_normal (length (FinV x)) (FinM Jr)) (Fin eps) (Fin st) = PInv y ->
  exists q, full_inverse n (mmL n (trL n Jr) Jr) q /\ y = FinV (subL x (sclL st (mulL q (mulL (trL n Jr) w)))).
Proof.
  intros PI Lx Lw RJ. unfold nls_step, gn_normal. rewrite FinV_length, Lx, mtrans_R, mmul_R.
  destruct (pinv (FinM _) (Fin eps)) as [Q| |] eqn:E; try discriminate.
  destruct (PI n _ _ _ (jtj_sym n Jr RJ) E) as (q & -> & T).
  intros X. injection X as <-. exists q. split; [exact T|].
  change (map (map Fin) q) with (FinM q). rewrite FinV_length, mmul_R, mvec_R, vmuls_R, vsub_R. do 3 f_equal.
  apply mm_mul; auto.
  - rewrite Lw. apply trL_rows.
  - destruct T as (((Lq & Rq & _) & _) & _). rewrite trL_length. exact Rq.
Qed.
Lemma gn_pads s s' (h0 : heap xR) pinv eps st : (forall c, In c (cells s') -> all_finite (prim_data h0 c) = true) -> full_pinv pinv ->
  forall x x' w Jr Jr' y y', pads (has_cell s) (prim_data h0) (cells s') (FinV x) (FinV x') -> length w = length Jr ->
  Forall2 (pads (has_cell s) (fun c => repeat 0 (dim c)) (cells s')) Jr Jr' ->
  nls_step pinv (FinV x) (FinV w) (FinM Jr) (gn_normal (length (FinV x)) (FinM Jr)) (Fin eps) (Fin st) = PInv y ->
  nls_step pinv (FinV x') (FinV w) (FinM Jr') (gn_normal (length (FinV x')) (FinM Jr')) (Fin eps) (Fin st) = PInv y' ->
  pads (has_cell s) (prim_data h0) (cells s') y y'.
Proof.
  intros FD PI x x' w Jr Jr' y y' PD Lw FJ E1 E2. set (keep := has_cell s) in *. set (cs := cells s') in *.
  destruct (pd_rows keep cs Jr Jr' FJ) as [RJ RJ']. destruct (data_len keep cs h0 _ _ PD) as [Lx Lx']. rewrite FinV_length in Lx, Lx'.
  assert (Lw' : length w = length Jr') by (rewrite Lw; eapply Forall2_length; eauto).
  apply (gn_step_R _ _ _ _ _ _ _ _ PI Lx Lw RJ) in E1 as (q & C & ->). apply (gn_step_R _ _ _ _ _ _ _ _ PI Lx' Lw' RJ') in E2 as (q' & C' & ->).
  set (n := dims (filter keep cs)) in *. set (n' := dims cs) in *.
  pose proof (jtj_sym n Jr RJ) as Sa. pose proof (jtj_sym n' Jr' RJ') as Sa'.
  pose proof (jtj_mul n Jr RJ) as Ha. pose proof (jtj_mul n' Jr' RJ') as Ha'.
  set (a := mmL n (trL n Jr) Jr) in *. set (a' := mmL n' (trL n' Jr') Jr') in *.
  assert (Pa : forall u v, pads keep (fun c => repeat 0 (dim c)) cs u v -> pads keep (fun c => repeat 0 (dim c)) cs (mulL a u) (mulL a' v)).
  { intros u v P. destruct (pd_len keep cs u v P) as [L1 L2]. rewrite Ha, Ha' by auto. rewrite (pd_mulJ keep cs Jr Jr' u v FJ P).
    apply pd_comb; auto. apply mulL_length. }
  pose proof (full_rhs n Jr a q RJ Sa Ha C w Lw) as R1. pose proof (full_rhs n' Jr' a' q' RJ' Sa' Ha' C' w Lw') as R2.
  set (g := mulL (trL n Jr) w) in *. set (g' := mulL (trL n' Jr') w) in *.
  assert (Pg : pads keep (fun c => repeat 0 (dim c)) cs g g') by now apply pd_comb.
  destruct (pd_len keep cs g g' Pg) as [Lg Lg'].
  pose proof (qq_len n a q C) as Lq. pose proof (qq_len n' a' q' C') as Lq'.
  destruct (pd_ex keep cs (mulL q g) (Lq g)) as (z & Pz). destruct (pd_len keep cs _ _ Pz) as [_ Lz].
  destruct (pd_ex keep cs (mulL q (mulL q g)) (Lq _)) as (t & Pt). destruct (pd_len keep cs _ _ Pt) as [_ Lt].
  pose proof C as (((_ & _ & Sq) & Q1 & Q2) & _). pose proof C' as (((_ & _ & Sq') & Q1' & Q2') & _). change mulR with mulL in *.
  assert (Ez : mulL a' z = g') by (pose proof (Pa _ _ Pz) as X; rewrite R1 in X; symmetry; exact (pd_fun keep cs _ _ _ Pg X)).
  assert (Et : z = mulL a' t).
  { pose proof (Pa _ _ Pt) as X. rewrite <- Q2, Q1 in X by auto. exact (pd_fun keep cs _ _ _ Pz X). }
  assert (Ep : mulL q' g' = mulL a' (mulL q' (mulL q' g'))) by (rewrite <- Q2', Q1' by auto; reflexivity).
  assert (Eq : mulL q' g' = z).
  { set (d := subL (mulL q' g') z). assert (Ld : length d = n') by (unfold d; rewrite subL_length; rewrite Lq'; auto).
    assert (Ed : mulL a' d = repeat 0 n') by (unfold d; rewrite mul_sub_r by (rewrite Lq'; auto); rewrite R2, Ez, sub_self0, Lg'; reflexivity).
    assert (K : forall u, length u = n' -> dotL d (mulL a' u) = 0).
    { intros u Lu. destruct Sa' as (_ & _ & Ss). change mulR with mulL in Ss. rewrite (Ss d u Ld Lu), Ed. apply dot_repeat0. }
    apply sub_zero_eq; [rewrite Lq'; auto|]. fold d. replace (length z) with (length d) by (rewrite Ld; symmetry; exact Lz). apply zero_of. unfold d at 2.
    rewrite dot_sub_r by (rewrite Lq'; auto). rewrite Ep, K by auto. rewrite Et, K by auto. lra. }
  rewrite Eq. now apply (pads_step s s' h0 FD).
Qed.
Lemma C95_gn_lemma pinv P eps st (h : heap xR) s s' : valid h s -> valid h s' -> finite_data h s' -> all_con_finite h s -> with_spare h s s' ->
  full_pinv pinv -> gn_eps P = Fin eps -> gn_step P = Fin st -> forall h1 h2 i j,
  gn_run pinv s P h = (h1, Val (SOk i)) -> gn_run pinv s' P h = (h2, Val (SOk j)) -> j = i /\ forall c, prim_data h2 c = prim_data h1 c.
Proof.
  intros V V' Fd CF W PI Ee Es h1 h2 i j. unfold gn_run. rewrite Ee, Es.
  assert (FD : forall c, In c (cells s') -> all_finite (prim_data h c) = true).
  { intros c Hc. apply forallb_forall. apply Forall_forall. apply Fd. now apply (valid_reg _ _ _ V'). }
  intros E1 E2.
  assert (T0 : T s s' h h h) by (split; [split; [apply struct_pre | intros ? ?; reflexivity]|]; split; [apply struct_pre | auto]).
  assert (O0 : okh s h h).
  { split; [apply frame_refl|]. unfold get_data, all_finite. rewrite forallb_forall. intros x Hx. apply in_flat_map in Hx as (c & Hc & Hx).
    apply (cells_sub s s' h W) in Hc. specialize (FD c Hc). unfold all_finite in FD. rewrite forallb_forall in FD. auto. }
  destruct (nls_pads s s' h V V' W FD CF pinv eps st _ (gn_pads s s' h pinv eps st FD PI) _ _ _ _ h h T0 O0 _ _ _ _ E1 E2) as [E (S & _)].
  split; [exact E|]. intros c. apply (proj2 S c I).
Qed.
