(** * atan2 of a direction, and the tangents of arcs *)
From Coq Require Import List ZArith Arith Bool Lia Reals Lra.
From Verif Require Import Arith Prim Decomp ArithR ExactSpec DecompSpec ExactDecomp.
Local Open Scope R_scope.

Lemma atan2_polar_core r t : 0 < r -> - PI < t <= PI -> atan2R (r * sin t) (r * cos t) = t.
Proof.
  intros Hr [H1 H2]. pose proof PI_RGT_0 as P. unfold atan2R.
  assert (T : cos t <> 0 -> r * sin t / (r * cos t) = tan t) by (intros; unfold tan; field; lra).
  destruct (Rlt_dec (- (PI / 2)) t) as [A|A]; [destruct (Rlt_dec t (PI / 2)) as [B|B]|].
  - assert (C : 0 < cos t) by (apply cos_gt_0; lra). destruct (Rlt_dec 0 (r * cos t)) as [|N]; [|destruct N; nra].
    rewrite T by lra. apply atan_tan. lra.
  - destruct (Req_dec t (PI / 2)) as [->|N].
    + rewrite cos_PI2, sin_PI2. destruct (Rlt_dec 0 (r * 0)); [lra|]. destruct (Rlt_dec (r * 0) 0); [lra|]. destruct (Rlt_dec 0 (r * 1)); [reflexivity|lra].
    + assert (t > PI / 2) by (destruct (Rtotal_order t (PI / 2)) as [|[|]]; tauto).
      assert (C : cos t < 0) by (apply cos_lt_0; lra). destruct (Rlt_dec 0 (r * cos t)); [nra|]. destruct (Rlt_dec (r * cos t) 0) as [|Q]; [|destruct Q; nra].
      assert (S : 0 <= sin t) by (apply sin_ge_0; lra). destruct (Rlt_dec (r * sin t) 0); [nra|]. rewrite T by lra.
      replace (tan t) with (tan (t - PI)). { rewrite atan_tan; lra. }
      unfold tan. rewrite sin_minus, cos_minus, sin_PI, cos_PI. field. lra.
  - destruct (Req_dec t (- (PI / 2))) as [->|N].
    + rewrite cos_neg, sin_neg, cos_PI2, sin_PI2. repeat destruct (Rlt_dec _ _); lra.
    + assert (t < - (PI / 2)) by (destruct (Rtotal_order t (- (PI / 2))) as [|[|]]; tauto).
      assert (C : cos t < 0). { rewrite <- cos_neg. apply cos_lt_0; lra. } destruct (Rlt_dec 0 (r * cos t)); [nra|]. destruct (Rlt_dec (r * cos t) 0) as [|Q]; [|destruct Q; nra].
      assert (S : sin t < 0). { apply Ropp_lt_cancel. rewrite Ropp_0, <- sin_neg. apply sin_gt_0; lra. } destruct (Rlt_dec (r * sin t) 0) as [|Q]; [|destruct Q; nra]. rewrite T by lra.
      replace (tan t) with (tan (t + PI)). { rewrite atan_tan; lra. }
      unfold tan. rewrite sin_plus, cos_plus, sin_PI, cos_PI. field. lra.
Qed.
Lemma sin_periodZ t k : sin (t + 2 * PI * IZR k) = sin t.
Proof.
  destruct (Z_le_gt_dec 0 k) as [H|H].
  - rewrite <- (Z2Nat.id k H), <- INR_IZR_INZ. replace (t + 2 * PI * INR (Z.to_nat k)) with (t + 2 * INR (Z.to_nat k) * PI) by lra. apply sin_period.
  - replace t with ((t + 2 * PI * IZR k) + 2 * INR (Z.to_nat (- k)) * PI) at 2; [now rewrite sin_period|]. rewrite INR_IZR_INZ, Z2Nat.id, opp_IZR by lia. lra.
Qed.
Lemma cos_periodZ t k : cos (t + 2 * PI * IZR k) = cos t.
Proof. rewrite !cos_sin. replace (PI / 2 + (t + 2 * PI * IZR k)) with (PI / 2 + t + 2 * PI * IZR k) by lra. apply sin_periodZ. Qed.
Lemma reduce_angle t : exists k, - PI < t + 2 * PI * IZR k <= PI.
Proof.
  pose proof PI_RGT_0 as P. destruct (archimed ((- t - PI) / (2 * PI))) as [A B]. exists (up ((- t - PI) / (2 * PI))). set (u := IZR (up _)) in *.
  assert (E : (- t - PI) / (2 * PI) * (2 * PI) = - t - PI) by (field; lra). nra.
Qed.
Lemma atan2_polar r t : 0 < r -> exists k, atan2R (r * sin t) (r * cos t) = t + 2 * PI * IZR k.
Proof.
  intros H. destruct (reduce_angle t) as [k Hk]. exists k. rewrite <- (sin_periodZ t k), <- (cos_periodZ t k). now apply atan2_polar_core.
Qed.
(** the direction of travel of a point moving along a circle of radius [r], at the angle [t],
    counter-clockwise or clockwise: the direction of the derivative of (r cos t, r sin t) or of its opposite *)
Definition travel (r t : R) (cw : bool) : R := if cw then atan2R (- (r * cos t)) (r * sin t) else atan2R (r * cos t) (- (r * sin t)).
Lemma travel_lemma r t cw : 0 < r -> exists k, travel r t cw = t + (if cw then - (PI / 2) else PI / 2) + 2 * PI * IZR k.
Proof.
  intros H. unfold travel. destruct cw.
  - destruct (atan2_polar r (t + - (PI / 2)) H) as [k E]. exists k. rewrite <- E. f_equal.
    + rewrite sin_plus, cos_neg, sin_neg, cos_PI2, sin_PI2. ring.
    + rewrite cos_plus, cos_neg, sin_neg, cos_PI2, sin_PI2. ring.
  - destruct (atan2_polar r (t + PI / 2) H) as [k E]. exists k. rewrite <- E. f_equal.
    + rewrite sin_plus, cos_PI2, sin_PI2. ring.
    + rewrite cos_plus, cos_PI2, sin_PI2. ring.
Qed.
Lemma quarter_off k : PI / 2 + 2 * PI * IZR k <> 0.
Proof.
  pose proof PI_RGT_0 as P. intros E. assert (E2 : IZR (1 + 4 * k) = 0) by (rewrite plus_IZR, mult_IZR; nra). apply eq_IZR in E2. lia.
Qed.
