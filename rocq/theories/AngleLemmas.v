(** * Rounding errors of cosines and angles (proofs for C92) *)
From Coq Require Import List ZArith NArith Arith Bool Reals Lra Lia Floats.SpecFloat.
From Flocq Require Import Core.Core IEEE754.BinarySingleNaN Relative Mult_error.
From Verif Require Import Arith ArithR ArithF Vec Prim Cons Sketch Spec SpecLemmas FloatLemmas FloatSpec FloatBound SerdeSpec
  ExactLemmas ExactSpec RoundSpec RoundRem RoundTurn RoundAngle RoundWalk RoundArea AccuracySpec AccuracyLemmas AccuracyForms AngleSpec.
Import ListNotations.
Local Open Scope R_scope.

(** ** arc cosines of nearby numbers *)
Lemma sin_half z : 0 <= z <= PI / 2 -> z / 2 <= sin z.
Proof.
  intros [A B]. pose proof PI_4 as P4. destruct (pre_sin_bound z 0 A) as [S _]; [lra|]. simpl in S. unfold sin_approx, sin_term in S. simpl in S.
  assert (PB : PI <= 32 / 10). { pose proof P_pi as PP. assert (EP : P * 2 ^ 50 = 3537118876014220).
    { unfold P, pi64. rewrite value_fin. change (bp (-51)) with (/ 2251799813685248). simpl. lra. }
    assert (EV : V <= / 1000) by (unfold V; simpl; lra). simpl in EP. lra. }
  assert (Z : z <= 16 / 10) by lra. assert (z * z <= 256 / 100) by nra. assert (Q : z - z * (z * z) / 6 <= sin z) by (eapply Rle_trans; [|exact S]; right; field). nra.
Qed.
Lemma cos_gap x y : 0 <= x -> x <= y -> y <= PI -> (y - x) * (y - x) <= 8 * (cos x - cos y) /\ (y - x) * sin x <= 4 * (cos x - cos y) /\ (y - x) * sin y <= 4 * (cos x - cos y).
Proof.
  intros X XY Y. set (d := (y - x) / 2). set (m := (x + y) / 2). assert (Ed : y - x = 2 * d) by (unfold d; lra).
  assert (C : cos x - cos y = 2 * sin d * sin m). { rewrite form2. fold m. replace ((x - y) / 2) with (- d) by (unfold d; lra). rewrite sin_neg. ring. }
  assert (D : d / 2 <= sin d) by (apply sin_half; unfold d; lra). assert (D0 : 0 <= d) by (unfold d; lra).
  assert (SX : 0 <= sin x) by (apply sin_ge_0; lra). assert (SY : 0 <= sin y) by (apply sin_ge_0; lra). assert (Sm : 0 <= sin m) by (apply sin_ge_0; unfold m; lra).
  assert (M1 : sin d <= sin m).
  { assert (E : sin m - sin d = 2 * cos (y / 2) * sin (x / 2)). { rewrite form4. unfold m, d. replace (((x + y) / 2 + (y - x) / 2) / 2) with (y / 2) by lra. replace (((x + y) / 2 - (y - x) / 2) / 2) with (x / 2) by lra. ring. }
    assert (0 <= cos (y / 2)) by (apply cos_ge_0; lra). assert (0 <= sin (x / 2)) by (apply sin_ge_0; lra). nra. }
  assert (M2 : sin x + sin y <= 2 * sin m).
  { rewrite form3. replace ((x - y) / 2) with (- d) by (unfold d; lra). rewrite cos_neg. fold m. pose proof (COS_bound d). nra. }
  rewrite C, Ed. split; [|split]; nra.
Qed.
Lemma acos_gap a b : -1 <= a <= 1 -> -1 <= b <= 1 -> Rabs (acos a - acos b) * Rabs (acos a - acos b) <= 8 * Rabs (a - b) /\ Rabs (acos a - acos b) * sin (acos b) <= 4 * Rabs (a - b).
Proof.
  intros A B. pose proof (acos_bound a) as [A1 A2]. pose proof (acos_bound b) as [B1 B2]. pose proof (cos_acos a A) as CA. pose proof (cos_acos b B) as CB.
  destruct (Rle_dec (acos a) (acos b)) as [O|O].
  - destruct (cos_gap (acos a) (acos b)) as (G1 & G2 & G3); auto. rewrite CA, CB in *. rewrite (Rabs_left1 (acos a - acos b)) by lra. assert (0 <= a - b) by nra. rewrite (Rabs_pos_eq (a - b)) by auto. split; lra.
  - destruct (cos_gap (acos b) (acos a)) as (G1 & G2 & G3); try lra. rewrite CA, CB in *. rewrite (Rabs_pos_eq (acos a - acos b)) by lra. assert (0 <= b - a) by nra. rewrite (Rabs_left1 (a - b)) by lra. split; lra.
Qed.

(** ** the computed cosine *)
Section Cosine.
Variable L : libm.
#[local] Instance AFg : Arith spec_float := ArithF L.
Lemma mul_rel x y a b m n j k : ap x a m (j * U * m) -> ap y b n (k * U * n) -> 0 <= j <= 20 -> 0 <= k <= 20 -> 0 < m -> 0 < n -> m * n <= bp 300 -> eta <= U * (m * n) / 1000 ->
  ap (SFmul 53 1024 x y) (a * b) (m * n) ((j + k + 11 / 10) * U * (m * n)).
Proof.
  intros X Y J K M N B E. pose proof U_small as US. set (w := m * n) in *. assert (W : 0 < w) by (unfold w; nra). assert (UW : 0 < U * w) by nra.
  assert (JK : 0 <= j * k <= 400) by nra. assert (B3 : bp 300 * 2 <= big). { change 2 with (bp 1). rewrite <- bpow_plus. apply bp_le. lia. }
  assert (UJ : 0 <= j * U <= 20 * U) by nra. assert (UK : 0 <= k * U <= 20 * U) by nra.
  assert (Z : (m + j * U * m) * (n + k * U * n) <= big). { replace ((m + j * U * m) * (n + k * U * n)) with (w * ((1 + j * U) * (1 + k * U))) by (unfold w; ring). assert ((1 + j * U) * (1 + k * U) <= 2) by nra. nra. }
  apply (ap_mul _ _ _ _ _ _ _ _ X Y) in Z. eapply ap_weaken; [exact Z | apply Rle_refl|]. fold w.
  replace (j * U * m * n + (m + j * U * m) * (k * U * n)) with (U * w * (j + k + U * (j * k))) by (unfold w; ring).
  assert (Q : j + k + U * (j * k) <= 41) by nra. assert (Q2 : U * (j * k) <= 4 / 10000) by nra. assert (Q0 : 0 <= j + k + U * (j * k)) by nra.
  assert (QU : U * (j + k + U * (j * k)) <= 41 / 1000000) by nra.
  apply Rle_trans with (U * w * ((j + k + U * (j * k)) + 1 + U * (j + k + U * (j * k))) + eta); [right; ring|]. nra.
Qed.
Lemma small_prod a b : tiny <= a -> tiny <= b -> eta <= U * (a * b) / 1000 /\ t <= U * a / 1000 /\ t <= U * b / 1000.
Proof.
  intros A B. pose proof U_small as US. assert (T : bp (-20) <= tiny). { unfold tiny. change (bp (-20)) with (/ 1048576). lra. }
  assert (TT : bp (-40) <= a * b). { change (-40)%Z with (-20 + -20)%Z. rewrite bpow_plus. pose proof (bpow_gt_0 radix2 (-20)). nra. }
  assert (Q : forall x k e, bp k <= x -> e <= bp (-53 + k + -10) -> e <= U * x / 1000).
  { intros x k e X E. rewrite !bpow_plus, <- U_bp in E. change (bp (-10)) with (/ 1024) in E. pose proof (bpow_gt_0 radix2 k). assert (U * bp k <= U * x) by (apply Rmult_le_compat_l; lra). assert (0 < U * bp k) by nra. lra. }
  split; [|split]; [apply (Q _ (-40)%Z) | apply (Q _ (-20)%Z) | apply (Q _ (-20)%Z)]; try lra; apply bpow_le; lia.
Qed.
Variables (d1 d2 : spec_float * spec_float) (u v : R * R).
Hypothesis X1 : apv d1 u (len u) (U * len u + 2 * eta).
Hypothesis X2 : apv d2 v (len v) (U * len v + 2 * eta).
Hypothesis B1 : len u <= bp 105.
Hypothesis B2 : len v <= bp 105.
Lemma norm_rel d w : apv d w (len w) (U * len w + 2 * eta) -> len w <= bp 105 -> tiny / 2 <= len w -> ap (v2norm d) (len w) (len w) (61 / 10 * U * len w).
Proof.
  intros X B T. pose proof U_small as US. pose proof eta_t as (T1 & T2 & T3 & T4). pose proof t_pos as TP. set (l := len w) in *. assert (L0 : 0 < l) by (unfold tiny in T; lra).
  assert (TU : t <= U * l / 1000).
  { apply Rle_trans with (bp (-53) * bp (-22) * bp (-10)); [rewrite <- !bpow_plus; apply bpow_le; lia|]. rewrite <- U_bp. change (bp (-10)) with (/ 1024).
    assert (bp (-22) <= l) by (change (bp (-22)) with (/ 4194304); unfold tiny in T; lra). assert (U * bp (-22) <= U * l) by (apply Rmult_le_compat_l; lra). assert (0 < bp (-22)) by apply bpow_gt_0. nra. }
  assert (UL : 0 < U * l) by nra. assert (UL2 : U * l <= l / 1000000) by nra.
  assert (G : l + (U * l + 2 * eta) <= bp 200). { apply Rle_trans with (2 * bp 105); [lra|]. change 2 with (bp 1). rewrite <- bpow_plus. apply bpow_le. lia. }
  eapply ap_weaken; [exact (norm_ap L d w _ _ X G) | apply Rle_refl|]. fold l. nra.
Qed.
Hypothesis T1 : tiny <= len u.
Hypothesis T2 : tiny <= len v.
Lemma comp_rel d w : apv d w (len w) (U * len w + 2 * eta) -> tiny <= len w -> ap (fst d) (fst w) (len w) (11 / 10 * U * len w) /\ ap (snd d) (snd w) (len w) (11 / 10 * U * len w).
Proof.
  intros (F1 & F2 & _ & D) T. destruct (comp_le (sub2 (val2 d) w)) as [C1 C2]. destruct (comp_le w) as [W1 W2]. destruct (small_prod _ _ T T) as (_ & Q & _). pose proof eta_t as (_ & _ & _ & ET). pose proof t_pos as TP.
  split; (split; [assumption|]; split; [assumption|]); [change (value (fst d) - fst w) with (fst (sub2 (val2 d) w)) | change (value (snd d) - snd w) with (snd (sub2 (val2 d) w))]; lra.
Qed.
Lemma cosine_ap : let c := v2dot d1 d2 /f (v2norm d1 *f v2norm d2) in finite64 c /\ Rabs (value c - dotR u v / (len u * len v)) <= 25 * U.
Proof.
  intros c. pose proof U_small as US. destruct (small_prod _ _ T1 T2) as (E1 & _ & _). set (a := len u) in *. set (b := len v) in *. assert (A0 : 0 < a) by (unfold tiny in T1; lra). assert (B0 : 0 < b) by (unfold tiny in T2; lra).
  assert (W0 : 0 < a * b) by nra. assert (WB : a * b <= bp 210). { change 210%Z with (105 + 105)%Z. rewrite bpow_plus. apply Rmult_le_compat; lra. }
  assert (WB3 : a * b <= bp 300) by (eapply Rle_trans; [exact WB | apply bp_le; lia]).
  assert (N1 := norm_rel d1 u X1 B1 ltac:(fold a; unfold tiny in *; lra)). assert (N2 := norm_rel d2 v X2 B2 ltac:(fold b; unfold tiny in *; lra)). fold a in N1. fold b in N2.
  assert (P := mul_rel _ _ _ _ _ _ _ _ N1 N2 ltac:(lra) ltac:(lra) A0 B0 WB3 E1). destruct (comp_rel d1 u X1 T1) as [C1 C2]. destruct (comp_rel d2 v X2 T2) as [D1 D2]. fold a in C1, C2. fold b in D1, D2.
  assert (Q1 := mul_rel _ _ _ _ _ _ _ _ C1 D1 ltac:(lra) ltac:(lra) A0 B0 WB3 E1). assert (Q2 := mul_rel _ _ _ _ _ _ _ _ C2 D2 ltac:(lra) ltac:(lra) A0 B0 WB3 E1).
  set (w := a * b) in *. assert (UW : 0 < U * w) by nra. assert (UW2 : U * w <= w / 1000000) by nra.
  assert (Z : w + w + (11 / 10 + 11 / 10 + 11 / 10) * U * w + (11 / 10 + 11 / 10 + 11 / 10) * U * w <= big). { apply Rle_trans with (bp 2 * bp 210); [change (bp 2) with 4; lra|]. rewrite <- bpow_plus. apply bp_le. lia. }
  apply (ap_add _ _ _ _ _ _ _ _ Q1 Q2) in Z. fold (dotR u v) in Z. change (SFadd 53 1024 _ _) with (v2dot d1 d2) in Z.
  change (@fmul _ AFg) with (SFmul 53 1024) in c. change (@fdiv _ AFg) with (SFdiv 53 1024) in c. set (p := SFmul 53 1024 (v2norm d1) (v2norm d2)) in *. set (q := v2dot d1 d2) in *.
  destruct P as (Fp & _ & Ep). destruct Z as (Fq & _ & Eq). assert (Ep' : Rabs (value p - w) <= 134 / 10 * (U * w)) by lra. assert (Eq' : Rabs (value q - dotR u v) <= 87 / 10 * (U * w)) by (eapply Rle_trans; [exact Eq|]; nra). clear Ep Eq.
  assert (DL : Rabs (dotR u v) <= w) by apply dot_le. apply Rabs_le_inv in Ep'. set (s := value p) in *. set (r := value q) in *. assert (SP : 999 / 1000 * w <= s) by lra. assert (S0 : 0 < s) by lra.
  set (z := dotR u v) in *. assert (KW : w / s <= 1002 / 1000). { apply (Rmult_le_reg_r s); auto. unfold Rdiv at 1. rewrite Rmult_assoc, Rinv_l by lra. lra. } assert (KW0 : 0 < w / s) by (apply Rdiv_lt_0_compat; lra).
  assert (D : Rabs (r / s - z / w) <= 223 / 10 * U).
  { replace (r / s - z / w) with (((r - z) * w + z * (w - s)) * / (s * w)) by (field; lra). rewrite Rabs_mult, (Rabs_pos_eq (/ (s * w))) by (apply Rlt_le, Rinv_0_lt_compat; nra).
    apply Rle_trans with ((87 / 10 * (U * w) * w + w * (134 / 10 * (U * w))) * / (s * w)).
    - apply Rmult_le_compat_r; [apply Rlt_le, Rinv_0_lt_compat; nra|]. eapply Rle_trans; [apply Rabs_triang|]. rewrite !Rabs_mult, (Rabs_pos_eq w) by lra. apply Rplus_le_compat; [apply Rmult_le_compat_r; lra|].
      apply Rmult_le_compat; auto using Rabs_pos. apply Rabs_le. lra.
    - replace ((87 / 10 * (U * w) * w + w * (134 / 10 * (U * w))) * / (s * w)) with (221 / 10 * U * (w / s)) by (field; lra). nra. }
  assert (ZW : Rabs (z / w) <= 1). { unfold Rdiv. rewrite Rabs_mult, (Rabs_pos_eq (/ w)) by (apply Rlt_le, Rinv_0_lt_compat; lra). apply (Rmult_le_reg_r w); auto. rewrite Rmult_assoc, Rinv_l by lra. lra. }
  destruct (div_real q p Fq Fp) as [F E]; [rewrite <- value_r64; fold s; lra | |].
  { rewrite <- !value_r64. fold r s. apply (big_lt' _ 1); [lia | lia|]. change (bp 1) with 2. apply Rabs_le_inv in D, ZW. apply Rabs_le. lra. }
  rewrite <- !value_r64 in E. fold r s in E. destruct (op_ap _ _ _ _ _ F E ZW D) as (_ & _ & O). split; [exact F|]. eapply Rle_trans; [exact O|]. pose proof tU. pose proof eta_t as (_ & _ & _ & ET). nra.
Qed.
End Cosine.
