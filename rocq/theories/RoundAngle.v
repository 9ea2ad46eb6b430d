(** * Turn angles in binary64 (proofs for C68) *)
From Coq Require Import List ZArith Bool Reals Lra Lia Floats.SpecFloat.
From Flocq Require Import Core.Core IEEE754.BinarySingleNaN.
From Verif Require Import Arith ArithR ArithF FloatLemmas FloatSpec FloatBound Decomp ExactDecomp RoundSpec RoundPi RoundTurn RoundRem.
Local Open Scope R_scope.

#[local] Instance Hp64' : FLX.Prec_gt_0 53 := eq_refl.
#[local] Instance Hm64' : Prec_lt_emax 53 1024 := eq_refl.
#[local] Instance Hve' : Valid_exp fexp64 := fexp_correct 53 1024 Hp64'.

Lemma Rltb_no a b : b <= a -> Rltb a b = false. Proof. intros. unfold Rltb. destruct (Rlt_dec a b); auto; lra. Qed.
Definition P : R := value pi64.
Definition V : R := / 2 ^ 52.
Lemma P_pi : 0 < PI - P < V.
Proof.
  pose proof pi_close as H. unfold P, V, pi64. rewrite value_fin. change (bp (-51)) with (/ 2251799813685248).
  replace (2 ^ 52) with 4503599627370496 by (simpl; lra). unfold Rdiv in H. exact H.
Qed.
Lemma tau_val : value tau64 = 2 * P.
Proof. unfold P, pi64, tau64. rewrite !value_fin. change (bp (-51)) with (/ 2251799813685248). change (bp (-50)) with (/ 1125899906842624). lra. Qed.
Lemma P_range : 3 < P < 4.
Proof. unfold P, pi64. rewrite value_fin. change (bp (-51)) with (/ 2251799813685248). lra. Qed.
Lemma pi_fin : finite64 pi64. Proof. split; reflexivity. Qed.
Lemma tau_fin : finite64 tau64. Proof. split; reflexivity. Qed.
Lemma two_pi64 L : let A := ArithF L in f2 *f fpi = tau64. Proof. vm_compute. reflexivity. Qed.

(** rounding a real in an interval with representable ends *)
Lemma rnd_in l u x : generic_format radix2 fexp64 l -> generic_format radix2 fexp64 u -> l <= x <= u -> l <= rnd64 x <= u.
Proof. intros Hl Hu [H1 H2]. split; [apply round_ge_generic | apply round_le_generic]; auto with typeclass_instances. Qed.
Lemma fmt_fin x : finite64 x -> generic_format radix2 fexp64 (value x).
Proof. intros [Vx _]. rewrite value_r64. now apply r64_fmt. Qed.
Lemma err8 x : Rabs x <= 2 * P -> Rabs (rnd64 x - x) <= 2 * V.
Proof.
  intros H. replace (2 * V) with (bp (3 - 54)).
  - apply rnd_err; [lia|]. change (bp 3) with 8. pose proof P_range. lra.
  - unfold V. change (bp (3 - 54)) with (/ 2251799813685248). simpl. lra.
Qed.
Lemma add8 x y : finite64 x -> finite64 y -> Rabs (value x + value y) <= 2 * P ->
  finite64 (SFadd 53 1024 x y) /\ value (SFadd 53 1024 x y) = rnd64 (value x + value y).
Proof.
  intros Hx Hy B. rewrite !value_r64 in *. apply add_real; auto. eapply Rle_lt_trans; [apply (rnd_le _ 3); [lia|]|apply bp_lt; lia].
  change (bp 3) with 8. pose proof P_range. lra.
Qed.
Lemma sub8 x y : finite64 x -> finite64 y -> Rabs (value x - value y) <= 2 * P ->
  finite64 (SFsub 53 1024 x y) /\ value (SFsub 53 1024 x y) = rnd64 (value x - value y).
Proof.
  intros Hx Hy B. rewrite !value_r64 in *. apply sub_real; auto. eapply Rle_lt_trans; [apply (rnd_le _ 3); [lia|]|apply bp_lt; lia].
  change (bp 3) with 8. pose proof P_range. lra.
Qed.
Lemma ltb_val x y : finite64 x -> finite64 y -> SFltb x y = Rltb (value x) (value y).
Proof.
  intros Hx Hy. rewrite !value_r64. unfold Rltb. destruct (Rlt_dec _ _) as [H|H].
  - apply ltb_R; auto.
  - destruct (SFltb x y) eqn:E; auto. exfalso. apply H. now apply ltb_R.
Qed.
Lemma f0_fin : finite64 (of_Z64 0) /\ value (of_Z64 0) = 0. Proof. split; [split; reflexivity | reflexivity]. Qed.
Lemma P0_fmt : generic_format radix2 fexp64 0. Proof. apply generic_format_0. Qed.
Lemma P2_fmt : generic_format radix2 fexp64 (2 * P). Proof. rewrite <- tau_val. apply fmt_fin, tau_fin. Qed.

Lemma turn_float L a b : let A := ArithF L in finite64 a -> finite64 b -> Rabs (value a) <= P -> Rabs (value b) <= P ->
  let t := angle_difference (frem (a +f fpi) (f2 *f fpi)) b in
  finite64 t /\ 0 <= value t <= 2 * P /\ exists k, Rabs (value t - (value b - (value a + PI)) + 2 * PI * IZR k) <= 15 * V.
Proof.
  intros A Ha Hb Ba Bb t. pose proof P_range as PR. pose proof P_pi as PP. apply Rabs_le_inv in Ba, Bb.
  pose proof P0_fmt as F0. pose proof P2_fmt as F2. destruct f0_fin as [Z1 Z2].
  assert (VP : 0 < V < / 1000) by (unfold V; simpl; lra).
  (* u *)
  destruct (add8 a pi64 Ha pi_fin) as [Hu Eu]; [fold P; apply Rabs_le; lra|]. fold P in Eu. set (u := SFadd 53 1024 a pi64) in *.
  assert (Ru : 0 <= value u <= 2 * P) by (rewrite Eu; apply rnd_in; auto; lra).
  assert (Xu : Rabs (value u - (value a + P)) <= 2 * V) by (rewrite Eu; apply err8, Rabs_le; lra). apply Rabs_le_inv in Xu.
  (* v *)
  destruct (rem_exact u tau64 Hu tau_fin) as [Hv Ev]; [rewrite tau_val; lra|]. rewrite tau_val in Ev. set (v := rem64 u tau64) in *.
  assert (Kv : exists k, (k = 0 \/ k = 1)%Z /\ value v = value u - 2 * P * IZR k /\ 0 <= value v <= 2 * P).
  { rewrite Ev. unfold Rtrunc. assert (0 <= value u / (2 * P)) by (apply Rmult_le_pos; [lra | left; apply Rinv_0_lt_compat; lra]).
    destruct (Rlt_dec _ _); [lra|]. destruct (Rlt_dec (value u) (2 * P)) as [Hl|Hl].
    - assert (value u / (2 * P) < 1) by (apply (Rmult_lt_reg_r (2 * P)); [lra|]; unfold Rdiv; rewrite Rmult_assoc, Rinv_l; lra).
      rewrite <- (Int_part_is _ 0) by (simpl; lra). exists 0%Z. simpl. repeat split; auto; lra.
    - assert (value u = 2 * P) as -> by lra. replace (2 * P / (2 * P)) with 1 by (field; lra).
      rewrite <- (Int_part_is _ 1) by (simpl; lra). exists 1%Z. simpl. repeat split; auto; lra. }
  destruct Kv as (k0 & K0 & Ev' & Rv). clear Ev.
  assert (Et : t = angle_difference v b) by (assert (T : f2 *f fpi = tau64) by exact (two_pi64 L); unfold t; rewrite T; reflexivity). clearbody t. subst t.
  unfold angle_difference. change (@ftau _ A) with tau64. change (@f0 _ A) with (of_Z64 0).
  change (@fgt _ A) with (fun x y => SFltb y x). change (@flt _ A) with SFltb. change (@fadd _ A) with (SFadd 53 1024). change (@fsub _ A) with (SFsub 53 1024).
  cbv beta. rewrite !(ltb_val tau64 v), tau_val by (auto; exact tau_fin). rewrite Rltb_no by lra.
  rewrite (ltb_val v (of_Z64 0)), Z2 by auto. rewrite (Rltb_no (value v)) by lra.
  rewrite (ltb_val tau64 b), tau_val by (auto; exact tau_fin). rewrite (Rltb_no (2 * P)) by lra.
  rewrite (ltb_val b (of_Z64 0)), Z2 by auto.
  (* b' *)
  assert (Kb : exists b' k, (if Rltb (value b) 0 then SFadd 53 1024 b tau64 else b) = b' /\ finite64 b' /\ 0 <= value b' <= 2 * P /\ (k = 0 \/ k = 1)%Z /\
    Rabs (value b' - (value b + 2 * P * IZR k)) <= 2 * V).
  { destruct (Rltb (value b) 0) eqn:E.
    - apply Rltb_true in E. destruct (add8 b tau64 Hb tau_fin) as [H1 H2]; [rewrite tau_val; apply Rabs_le; lra|]. rewrite tau_val in H2.
      exists (SFadd 53 1024 b tau64), 1%Z. split; auto. split; auto. split; [rewrite H2; apply rnd_in; auto; lra|]. split; auto.
      rewrite H2, Rmult_1_r. apply err8, Rabs_le; lra.
    - apply Rltb_false in E. exists b, 0%Z. split; auto. split; auto. split; [lra|]. split; auto. rewrite Rmult_0_r, Rplus_0_r, Rminus_diag_eq, Rabs_R0 by auto. lra. }
  destruct Kb as (b' & k1 & -> & Hb' & Rb' & K1 & Xb). apply Rabs_le_inv in Xb.
  (* d *)
  destruct (sub8 b' v Hb' Hv) as [Hd Ed]; [apply Rabs_le; lra|]. set (d := SFsub 53 1024 b' v) in *.
  assert (Rd : - (2 * P) <= value d <= 2 * P) by (rewrite Ed; apply rnd_in; auto; [now apply generic_format_opp | lra]).
  assert (Xd : Rabs (value d - (value b' - value v)) <= 2 * V) by (rewrite Ed; apply err8, Rabs_le; lra). apply Rabs_le_inv in Xd.
  rewrite (ltb_val tau64 d), tau_val by (auto; exact tau_fin). rewrite (Rltb_no (2 * P)) by lra.
  rewrite (ltb_val d (of_Z64 0)), Z2 by auto.
  assert (Kd : exists r k, (if Rltb (value d) 0 then SFadd 53 1024 d tau64 else d) = r /\ finite64 r /\ 0 <= value r <= 2 * P /\ (k = 0 \/ k = 1)%Z /\
    Rabs (value r - (value d + 2 * P * IZR k)) <= 2 * V).
  { destruct (Rltb (value d) 0) eqn:E.
    - apply Rltb_true in E. destruct (add8 d tau64 Hd tau_fin) as [H1 H2]; [rewrite tau_val; apply Rabs_le; lra|]. rewrite tau_val in H2.
      exists (SFadd 53 1024 d tau64), 1%Z. split; auto. split; auto. split; [rewrite H2; apply rnd_in; auto; lra|]. split; auto.
      rewrite H2, Rmult_1_r. apply err8, Rabs_le; lra.
    - apply Rltb_false in E. exists d, 0%Z. split; auto. split; auto. split; [lra|]. split; auto. rewrite Rmult_0_r, Rplus_0_r, Rminus_diag_eq, Rabs_R0 by auto. lra. }
  destruct Kd as (r & k2 & -> & Hr & Rr & K2 & Xr). apply Rabs_le_inv in Xr. split; auto. split; auto.
  exists (- (k0 + k1 + k2))%Z. rewrite opp_IZR, !plus_IZR. apply Rabs_le.
  destruct K0 as [-> | ->], K1 as [-> | ->], K2 as [-> | ->]; simpl in *; lra.
Qed.
