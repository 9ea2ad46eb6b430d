(** * How exactly binary64 angles measure the geometry (proofs for C92) *)
From Coq Require Import List ZArith NArith Arith Bool Reals Lra Lia Floats.SpecFloat.
From Flocq Require Import Core.Core IEEE754.BinarySingleNaN.
From Verif Require Import Arith ArithR ArithF Vec Prim Cons Sketch Spec SerdeSpec SpecLemmas FloatLemmas FloatSpec FloatBound
  ExactLemmas ExactSpec RoundSpec RoundRem RoundTurn RoundAngle RoundWalk RoundArea AccuracySpec AccuracyLemmas AccuracyForms AngleSpec AngleLemmas.
Import ListNotations.
Local Open Scope R_scope.

Lemma lit_val : finite64 (lit64 1 6) /\ Rabs (value (lit64 1 6) - tiny) <= U * tiny.
Proof.
  rewrite ArithF.lit_1em6. split; [split; reflexivity|]. rewrite value_fin. unfold U, tiny.
  change (bp (-72)) with (/ 4722366482869645213696). simpl (2 ^ 53). apply Rabs_le. lra.
Qed.
Section Angle.
Variable L : libm.
#[local] Instance AFa : Arith spec_float := ArithF L.
Hypothesis AC : accurate_acos L.
Variables (M : R) (h : heap spec_float).
Hypothesis M2 : M <= 2 ^ 100.
Lemma clamp_near x r : finite64 x -> -1 <= r <= 1 -> within 1 (fclamp fm1 f1 x) /\ Rabs (value (fclamp fm1 f1 x) - r) <= Rabs (value x - r).
Proof.
  intros F R. assert (O : finite64 (f1 : spec_float) /\ value (f1 : spec_float) = 1). { split; [split; reflexivity|]. change (f1 : spec_float) with (S754_finite false 4503599627370496 (-52)). rewrite value_fin. change (bp (-52)) with (/ 4503599627370496). lra. }
  assert (N : finite64 (fm1 : spec_float) /\ value (fm1 : spec_float) = -1). { split; [split; reflexivity|]. change (fm1 : spec_float) with (S754_finite true 4503599627370496 (-52)). rewrite value_fin. change (bp (-52)) with (/ 4503599627370496). lra. }
  destruct O as [O1 O2], N as [N1 N2]. unfold fclamp, fgt. change (@flt _ AFa) with SFltb.
  rewrite (ltb_val x fm1 F N1), N2. unfold Rltb. destruct (Rlt_dec (value x) (-1)) as [A|A].
  - rewrite (ltb_val f1 fm1 O1 N1), O2, N2. unfold Rltb. destruct (Rlt_dec 1 (-1)); [lra|]. split; [split; [exact N1 | rewrite N2; apply Rabs_le; lra]|]. rewrite N2. rewrite !Rabs_left1 by lra. lra.
  - rewrite (ltb_val f1 x O1 F), O2. unfold Rltb. destruct (Rlt_dec 1 (value x)) as [B|B].
    + split; [split; [exact O1 | rewrite O2; apply Rabs_le; lra]|]. rewrite O2, !Rabs_pos_eq by lra. lra.
    + split; [split; [exact F | apply Rabs_le; lra]|]. lra.
Qed.

Lemma M_101 : M <= bp 101. Proof. rewrite pow_bp in M2. eapply Rle_trans; [exact M2|]. apply bp_le. simpl. lia. Qed.
Lemma arm_ap p pm : placed L M h p -> placed L M h pm -> let u := from_to (cfg_of (exact_heap h)) pm p in
  apv (v2sub (pdata h p) (pdata h pm)) u (len u) (U * len u + 2 * eta) /\ len u <= bp 105.
Proof.
  intros P Q u. assert (T : forall q, placed L M h q -> within M (fst (pdata h q)) /\ within M (snd (pdata h q))).
  { intros q G. unfold placed in G. cbn [prim_data p_data] in G. inversion G as [|? ? A1 A2]. inversion A2. auto. }
  destruct (T p P) as [P1 P2]. destruct (T pm Q) as [Q1 Q2]. assert (E : u = sub2 (val2 (pdata h p)) (val2 (pdata h pm))). { unfold u, from_to. rewrite !(cx_ex L), !(cy_ex L). reflexivity. }
  rewrite E. destruct (sub_rel2 L M (pdata h p) (pdata h pm) M_101 P1 P2 Q1 Q2) as [A B]. split; [exact A|]. eapply Rle_trans; [exact B|].
  apply Rle_trans with (bp 2 * bp 101); [change (bp 2) with 4; pose proof M_101; pose proof (bpow_gt_0 radix2 101); lra | rewrite <- bpow_plus; apply bp_le; lia].
Qed.
Lemma U49 : / 2 ^ 49 = 16 * U. Proof. unfold U. simpl. lra. Qed.
(** the comparison of the norm with 1e-6 *)
Lemma long_test d u : apv d u (len u) (U * len u + 2 * eta) -> len u <= bp 105 -> long (len u) -> SFltb (SFabs (v2norm d)) (lit64 1 6) = false.
Proof.
  intros X B Lg. unfold long in Lg. rewrite U49 in Lg. pose proof U_small as US. unfold tiny in Lg. destruct (norm_rel L d u X B) as (F & _ & E); [unfold tiny; lra|]. change (AngleLemmas.AFg L) with AFa in *. destruct lit_val as [Fl El].
  destruct (abs_real _ F) as [Fa Ea]. rewrite <- !value_r64 in Ea. rewrite (ltb_val _ _ Fa Fl), Ea. apply Rltb_no. apply Rabs_le_inv in E, El. unfold tiny in El.
  eapply Rle_trans; [|apply Rle_abs]. assert (U * (1 + 16 * U) <= U * (11 / 10)) by (apply Rmult_le_compat_l; lra). assert (61 / 10 * U * len u <= 61 / 10 * U * len u) by lra. nra.
Qed.
Lemma short_test d u : apv d u (len u) (U * len u + 2 * eta) -> short (len u) -> SFltb (SFabs (v2norm d)) (lit64 1 6) = true.
Proof.
  intros X Sh. unfold short in Sh. rewrite U49 in Sh. pose proof U_small as US. pose proof eta_t as (T1 & _ & T3 & T4). pose proof tU as TU. pose proof t_pos as TP. pose proof (len_nonneg u) as N. unfold tiny in Sh.
  assert (G : len u + (U * len u + 2 * eta) <= bp 200). { apply Rle_trans with (bp 1); [change (bp 1) with 2; nra | apply bp_le; lia]. }
  destruct (norm_ap L d u _ _ X G) as (F & _ & E). change (AccuracyLemmas.AF L) with AFa in *. destruct lit_val as [Fl El]. destruct (abs_real _ F) as [Fa Ea]. rewrite <- !value_r64 in Ea. rewrite (ltb_val _ _ Fa Fl), Ea.
  unfold Rltb. destruct (Rlt_dec _ _) as [|C]; auto. exfalso. apply C. clear C.
  assert (TT : t <= U * / 1000000 / 1000). { apply Rle_trans with (bp (-53) * bp (-20) * bp (-10)); [rewrite <- !bpow_plus; apply bpow_le; lia|]. rewrite <- U_bp. change (bp (-10)) with (/ 1024). change (bp (-20)) with (/ 1048576). lra. }
  apply Rle_lt_trans with (len u + (U * len u + 2 * eta + 5 * U * (len u + (U * len u + 2 * eta)) + 4 * t)).
  - apply Rabs_le_inv in E. apply Rabs_le. nra.
  - apply Rabs_le_inv in El. unfold tiny in El. assert (U * len u <= U * / 1000000) by (apply Rmult_le_compat_l; nra). assert (U * (U * len u) <= U * (U * / 1000000)) by (apply Rmult_le_compat_l; lra). assert (U * eta <= eta) by nra. nra.
Qed.

Section Arms.
Variables p1 p2 pm : loc.
Hypothesis P1 : placed L M h p1.
Hypothesis P2 : placed L M h p2.
Hypothesis Pm : placed L M h pm.
Lemma angle_lemma : long (arm h pm p1) -> long (arm h pm p2) ->
  finite64 (current_angle h p1 p2 pm) /\ Rabs (value (current_angle h p1 p2 pm) - angle_at h p1 p2 pm) <= 3 / 2 / 10000000 /\
  Rabs (value (current_angle h p1 p2 pm) - angle_at h p1 p2 pm) * sin (angle_at h p1 p2 pm) <= / 2 ^ 46.
Proof.
  intros L1 L2. destruct (arm_ap p1 pm P1 Pm) as [X1 B1]. destruct (arm_ap p2 pm P2 Pm) as [X2 B2]. unfold arm in L1, L2. unfold angle_at, angleR. set (g := cfg_of (exact_heap h)) in *. cbv zeta.
  set (u := from_to g pm p1) in *. set (v := from_to g pm p2) in *. unfold current_angle. cbv zeta. set (d1 := v2sub (pdata h p1) (pdata h pm)) in *. set (d2 := v2sub (pdata h p2) (pdata h pm)) in *.
  change (flt (fabs (v2norm d1)) lit_1em6) with (SFltb (SFabs (v2norm d1)) (lit64 1 6)). change (flt (fabs (v2norm d2)) lit_1em6) with (SFltb (SFabs (v2norm d2)) (lit64 1 6)).
  rewrite (long_test d1 u X1 B1 L1), (long_test d2 v X2 B2 L2). cbn [orb]. pose proof U_small as US. assert (T : forall x, long x -> tiny <= x) by (intros x; unfold long; rewrite U49; unfold tiny; nra).
  destruct (cosine_ap L d1 d2 u v X1 X2 B1 B2 (T _ L1) (T _ L2)) as [F E]. change (AFg L) with AFa in *. set (c := v2dot d1 d2 /f (v2norm d1 *f v2norm d2)) in *. change (ffin c) with (fin64 c). rewrite (proj2 F). cbn [negb].
  set (r := dotR u v / (len u * len v)) in *. assert (R : -1 <= r <= 1).
  { pose proof (T _ L1) as A. pose proof (T _ L2) as B. unfold tiny in A, B. apply Rabs_le_inv. unfold r, Rdiv. assert (0 < len u * len v) by nra. rewrite Rabs_mult, (Rabs_pos_eq (/ _)) by (apply Rlt_le, Rinv_0_lt_compat; lra).
    apply (Rmult_le_reg_r (len u * len v)); auto. rewrite Rmult_assoc, Rinv_l by lra. pose proof (dot_le u v). lra. }
  destruct (clamp_near c r F R) as [W N]. set (x := fclamp fm1 f1 c) in *. change (facos x) with (lm_acos L x). destruct (AC x W) as [FA EA]. split; [exact FA|].
  assert (Bx : -1 <= value x <= 1) by (apply Rabs_le_inv, W). destruct (acos_gap (value x) r Bx R) as [G1 G2]. set (th := value (lm_acos L x)) in *. set (de := Rabs (acos (value x) - acos r)) in *.
  assert (Q : Rabs (value x - r) <= 25 * U) by lra. assert (D0 : 0 <= de) by apply Rabs_pos. assert (TR : Rabs (th - acos r) <= / 2 ^ 50 + de). { replace (th - acos r) with ((th - acos (value x)) + (acos (value x) - acos r)) by ring. eapply Rle_trans; [apply Rabs_triang|]. fold de. lra. }
  assert (P50 : / 2 ^ 50 = 8 * U) by (unfold U; simpl; lra). rewrite P50 in TR. assert (UV : U = / 9007199254740992) by (unfold U; simpl; lra). split.
  - assert (de <= 1495 / 10000000000). { apply Rsqr_incr_0_var; [unfold Rsqr|lra]. rewrite UV in Q. lra. } rewrite UV in TR. lra.
  - assert (S0 : 0 <= sin (acos r) <= 1). { pose proof (acos_bound r). pose proof (SIN_bound (acos r)). split; [apply sin_ge_0; lra | lra]. }
    apply Rle_trans with ((8 * U + de) * sin (acos r)); [apply Rmult_le_compat_r; lra|]. assert (P46 : / 2 ^ 46 = 128 * U) by (unfold U; simpl; lra). rewrite P46. nra.
Qed.
Lemma degenerate_lemma : short (arm h pm p1) \/ short (arm h pm p2) -> current_angle h p1 p2 pm = S754_zero false.
Proof.
  destruct (arm_ap p1 pm P1 Pm) as [X1 B1]. destruct (arm_ap p2 pm P2 Pm) as [X2 B2]. unfold arm, current_angle. cbv zeta. set (d1 := v2sub (pdata h p1) (pdata h pm)) in *. set (d2 := v2sub (pdata h p2) (pdata h pm)) in *.
  change (flt (fabs (v2norm d1)) lit_1em6) with (SFltb (SFabs (v2norm d1)) (lit64 1 6)). change (flt (fabs (v2norm d2)) lit_1em6) with (SFltb (SFabs (v2norm d2)) (lit64 1 6)).
  intros [S|S]; [rewrite (short_test d1 _ X1 S) | rewrite (short_test d2 _ X2 S), orb_true_r]; reflexivity.
Qed.
(** half the squared difference of a computed and a desired angle *)
Lemma sq_good x d a e : ap x a 4 e -> within (2 ^ 20) d -> 0 <= e <= 3 / 2 / 10000000 -> good (fhalf *f (x -f d) *f (x -f d)) (Rabs (a - value d)) (/ 2 ^ 22).
Proof.
  intros X D E. pose proof U_small as US. pose proof tU as TU. pose proof t_pos as TP. pose proof eta_t as (T1 & _ & _ & T4). assert (P20 : 2 ^ 20 = 1048576) by (simpl; lra). apply ap_exact in D. rewrite P20 in D.
  assert (Z : 4 + 1048576 + e + 0 <= big). { apply Rle_trans with (bp 21); [change (bp 21) with 2097152; lra | apply bp_le; lia]. }
  apply (ap_sub _ _ _ _ _ _ _ _ X D) in Z. destruct (half_sq_ap L _ _ _ _ Z) as (G1 & G2 & G3).
  { apply Rle_trans with (bp 21); [change (bp 21) with 2097152; nra | apply bp_le; lia]. }
  split; [exact G1|]. split; [exact G2|]. eapply Rle_trans; [exact G3|]. assert (UV : U = / 9007199254740992) by (unfold U; simpl; lra). assert (P22 : / 2 ^ 22 = / 4194304) by (simpl; lra). rewrite P22. rewrite UV in *. lra.
Qed.
End Arms.
Hypothesis SC : accurate_sincos L.
Hypothesis M1 : / 2 ^ 100 <= M.
Lemma any_good k : measurable_any L M h k -> good (loss_value h (getK h k)) (discrepancy h k) (slack M (getK h k)).
Proof.
  intros Me. unfold measurable_any in Me. change (ArithF L) with AFa in Me. destruct (getK h k) as [p1 p2 pm d|a p|a p|q1 q2 d|q1 q2 d|q1 q2 d|p x y|l1 l2|l|l|l1 l2|l1 l2] eqn:EK;
    try (rewrite <- EK; replace (slack M (getK h k)) with (unit_of M (getK h k) / 2 ^ 47) by (rewrite EK; reflexivity); exact (loss_good L SC M h M1 M2 k Me)).
  destruct Me as (P1 & P2 & Pm & D & A1 & A2). unfold discrepancy. rewrite getK_ex, EK. cbn [exact_con residual2 loss_value slack]. rewrite !(vx_ex). assert (SA : forall x, sqrt (sq x) = Rabs x) by (intros x; apply sqrt_Rsqr_abs).
  pose proof U_small as US. assert (LT : forall x, long x -> tiny <= x) by (intros x; unfold long; rewrite U49; unfold tiny; nra). assert (ST : forall x, short x -> x < tiny) by (intros x; unfold short; rewrite U49; unfold tiny; nra).
  assert (Z : short (arm h pm p1) \/ short (arm h pm p2) -> good (fhalf *f (current_angle h p1 p2 pm -f d) *f (current_angle h p1 p2 pm -f d)) (sqrt (sq (value d))) (/ 2 ^ 22)).
  { intros S. rewrite (degenerate_lemma p1 p2 pm P1 P2 Pm S), SA. replace (Rabs (value d)) with (Rabs (0 - value d)) by (rewrite Rminus_0_l; apply Rabs_Ropp). apply (sq_good _ _ _ 0); auto; [|lra].
    split; [split; reflexivity|]. rewrite Rabs_R0. split; [lra|]. change (value (S754_zero false)) with 0. rewrite Rminus_0_r, Rabs_R0. lra. }
  unfold arm in Z, A1, A2. destruct A1 as [A1|A1].
  - destruct A2 as [A2|A2].
    + pose proof (LT _ A1). pose proof (LT _ A2). destruct (Rlt_dec _ tiny); [lra|]. destruct (Rlt_dec _ tiny); [lra|]. rewrite SA.
      destruct (angle_lemma p1 p2 pm P1 P2 Pm A1 A2) as (F & E & _). apply (sq_good _ _ _ (3 / 2 / 10000000)); auto; [|lra]. split; [exact F|]. split; [|exact E].
      unfold angleR. match goal with |- context [acos ?t] => pose proof (acos_bound t) end. pose proof PI_4. rewrite Rabs_pos_eq; lra.
    + pose proof (ST _ A2). destruct (Rlt_dec _ tiny); [|destruct (Rlt_dec _ tiny); [|lra]]; apply Z; auto.
  - pose proof (ST _ A1). destruct (Rlt_dec _ tiny); [|lra]. apply Z. auto.
Qed.
Variable s : sketch.
Hypothesis Ms : forall k, In k (s_cons s) -> measurable_any L M h k.
Lemma certifies_any : finite64 (get_loss h s) /\ forall k, In k (s_cons s) -> discrepancy h k <= sqrt (2 * value (get_loss h s)) + slack M (getK h k).
Proof.
  destruct (zero_acc L) as (Z1 & Z2 & Z3). destruct (total_fin L h (s_cons s)) with (acc := f0 : spec_float) as (F & _ & B); auto.
  { intros k Hk. destruct (any_good k (Ms k Hk)) as (A & B & _). auto. }
  split; [exact F|]. intros k Hk. destruct (any_good k (Ms k Hk)) as (_ & C & D). specialize (B k Hk). change (AccuracyForms.AF2 L) with AFa in *. apply Rabs_le_inv in D.
  assert (sqrt (2 * value (loss_value h (getK h k))) <= sqrt (2 * value (get_loss h s))) by (apply sqrt_le_1_alt; change (get_loss h s) with (total_from L h (s_cons s) f0); lra). lra.
Qed.
Lemma below_any m : finite64 m -> SFltb (get_loss h s) m = true -> forall k, In k (s_cons s) -> discrepancy h k <= sqrt (2 * value m) + slack M (getK h k).
Proof.
  intros Fm Lt k Hk. destruct certifies_any as [F C]. apply (ltb_R _ _ F Fm) in Lt. rewrite <- !value_r64 in Lt.
  eapply Rle_trans; [exact (C k Hk)|]. apply Rplus_le_compat_r, sqrt_le_1_alt. apply Rmult_le_compat_l; [lra|]. apply Rlt_le, Lt.
Qed.
End Angle.
