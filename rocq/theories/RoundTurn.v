(** * Error of binary64 turn angles (proofs for C68) *)
From Coq Require Import List ZArith Bool Reals Lra Lia Machin Floats.SpecFloat.
From Flocq Require Import Core.Core IEEE754.BinarySingleNaN Relative Plus_error.
From Verif Require Import Arith ArithR ArithF FloatLemmas FloatSpec FloatBound Decomp ExactDecomp RoundSpec RoundPi.
Import ListNotations.
Local Open Scope R_scope.

#[local] Instance Hp64' : FLX.Prec_gt_0 53 := eq_refl.
#[local] Instance Hm64' : Prec_lt_emax 53 1024 := eq_refl.
#[local] Instance Hve' : Valid_exp fexp64 := fexp_correct 53 1024 Hp64'.

Lemma value_r64 x : value x = r64 x.
Proof.
  destruct x as [s|s| |s m e]; try reflexivity. unfold value, r64, SF2R, F2R. cbn [Fnum Fexp].
  rewrite bpow_powerRZ. destruct s; reflexivity.
Qed.
Lemma finite_real x : finite64 x <-> real64 x. Proof. reflexivity. Qed.
Lemma rnd_err x k : (-1020 <= k)%Z -> Rabs x <= bp k -> Rabs (rnd64 x - x) <= bp (k - 54).
Proof.
  intros K B. destruct (Req_dec (Rabs x) (bp k)) as [E|N].
  - assert (G : generic_format radix2 fexp64 x).
    { apply generic_format_abs_inv. rewrite E. apply bp_format. lia. }
    rewrite round_generic by (auto with typeclass_instances). rewrite Rminus_diag_eq, Rabs_R0 by auto. apply bpow_ge_0.
  - destruct (Req_dec x 0) as [->|Nx].
    { rewrite round_0 by auto with typeclass_instances. rewrite Rminus_0_r, Rabs_R0. apply bpow_ge_0. }
    eapply Rle_trans; [apply (error_le_half_ulp radix2 fexp64 (fun x => negb (Z.even x)))|]. rewrite ulp_neq_0 by auto. unfold cexp.
    replace (k - 54)%Z with ((k - 53) + (-1))%Z by lia. rewrite bpow_plus. change (bp (-1)) with (/ 2). rewrite Rmult_comm. apply Rmult_le_compat_r; [lra|].
    apply bpow_le. pose proof (mag_le_bpow radix2 x k Nx ltac:(lra)). unfold SpecFloat.fexp, SpecFloat.emin. lia.
Qed.
Lemma r64_fmt x : valid64 x -> generic_format radix2 fexp64 (r64 x).
Proof. intros V. rewrite <- (bx_R x V). apply generic_format_B2R. Qed.
Definition U : R := / 2 ^ 53.
Lemma uro : u_ro radix2 53 / (1 + u_ro radix2 53) <= U.
Proof. unfold u_ro, U. change (bp (-53 + 1)) with (/ 4503599627370496). simpl. lra. Qed.
Lemma sub_rel x y : finite64 x -> finite64 y -> Rabs (value x) <= 2 ^ 400 -> Rabs (value y) <= 2 ^ 400 ->
  finite64 (SFsub 53 1024 x y) /\ exists e, Rabs e <= U /\ value (SFsub 53 1024 x y) = (value x - value y) * (1 + e).
Proof.
  intros Hx Hy Bx By. rewrite !value_r64 in *. assert (P4 : 2 ^ 400 = bp 400) by (rewrite bpow_powerRZ; reflexivity).
  rewrite P4 in *. destruct (bnd_sub 400 400 x y (conj Hx Bx) (conj Hy By) eq_refl) as [Rr Br]. split; [exact Rr|].
  destruct (sub_real x y Hx Hy) as [_ E].
  { apply Rle_lt_trans with (bp 401); [|apply bp_lt; lia]. apply rnd_le; [lia|]. unfold Rminus. apply (sum_le 400 400); auto. now rewrite Rabs_Ropp. }
  rewrite E. destruct (FLT_plus_error_N_ex radix2 (-1074) 53 (fun x => negb (Z.even x)) (r64 x) (- r64 y)) as (e & He & Ee).
  - destruct Hx as [Vx _]. exact (r64_fmt x Vx).
  - apply generic_format_opp. destruct Hy as [Vy _]. exact (r64_fmt y Vy).
  - exists e. split; [pose proof uro; lra|]. exact Ee.
Qed.

(** ** Perturbing the arguments of atan2 *)
Lemma atan_lip w : Rabs (atan w) <= Rabs w.
Proof.
  assert (P : forall w, 0 < w -> 0 < atan w < w).
  { intros v Hv. split; [rewrite <- atan_0; now apply atan_increasing|].
    assert (A : 0 < atan v < PI / 2) by (pose proof (atan_bound v); split; [rewrite <- atan_0; now apply atan_increasing | lra]).
    destruct (MVT_cor2 atan (fun x => / (1 + x ^ 2)) 0 v Hv) as (c & Ec & Hc).
    { intros c _. apply derivable_pt_lim_atan. }
    rewrite atan_0, !Rminus_0_r in Ec. rewrite Ec. assert (0 < c ^ 2) by (apply pow_lt; lra).
    assert (/ (1 + c ^ 2) < 1) by (rewrite <- Rinv_1; apply Rinv_lt_contravar; lra). nra. }
  destruct (Rtotal_order w 0) as [H|[->|H]].
  - rewrite <- (Rabs_Ropp w), <- (Rabs_Ropp (atan w)), <- atan_opp. pose proof (P (- w) ltac:(lra)). rewrite !Rabs_pos_eq; lra.
  - rewrite atan_0. lra.
  - pose proof (P w H). rewrite !Rabs_pos_eq; lra.
Qed.

Lemma atan_pert z e : Rabs e <= / 2 -> Rabs (atan (z * (1 + e)) - atan z) <= Rabs e.
Proof.
  intros He. apply Rabs_le_inv in He. destruct (Req_dec z 0) as [->|Nz]; [rewrite Rmult_0_l, Rminus_diag_eq, Rabs_R0 by auto; apply Rabs_pos|].
  assert (Z2 : 0 < z * z) by nra. assert (Q : 0 < 1 + z * (1 + e) * z) by nra.
  assert (S : - PI / 2 < atan (z * (1 + e)) - atan z < PI / 2).
  { pose proof (atan_bound z). pose proof (atan_bound (z * (1 + e))). destruct (Rlt_dec 0 z) as [P|P].
    - assert (0 < z * (1 + e)) by nra. pose proof (atan_increasing 0 z P). pose proof (atan_increasing _ _ H1). rewrite atan_0 in *. lra.
    - assert (z < 0) by lra. assert (z * (1 + e) < 0) by nra. pose proof (atan_increasing _ 0 H1). pose proof (atan_increasing _ _ H2). rewrite atan_0 in *. lra. }
  rewrite (atan_sub_correct (z * (1 + e)) z); [|lra | exact S | pose proof (atan_bound (atan_sub (z * (1 + e)) z)); lra].
  replace (atan z + atan (atan_sub (z * (1 + e)) z) - atan z) with (atan (atan_sub (z * (1 + e)) z)) by ring.
  eapply Rle_trans; [apply atan_lip|]. unfold atan_sub. replace (z * (1 + e) - z) with (e * z) by ring.
  unfold Rdiv. rewrite !Rabs_mult, Rabs_inv, (Rabs_pos_eq (1 + _)) by lra. apply (Rmult_le_reg_r (1 + z * (1 + e) * z)); [lra|].
  rewrite Rmult_assoc, Rinv_l, Rmult_1_r by lra. apply Rmult_le_compat_l; [apply Rabs_pos|].
  assert (Rabs z * Rabs z = z * z) by (rewrite <- Rabs_mult; apply Rabs_pos_eq; lra). pose proof (Rabs_pos z).
  replace (z * (1 + e) * z) with ((1 + e) * (z * z)) by ring. rewrite <- H.
  set (w := Rabs z) in *. assert (/ 2 * (w * w) <= (1 + e) * (w * w)) by (apply Rmult_le_compat_r; nra). pose proof (Rle_0_sqr (1 - w)). unfold Rsqr in *. lra.
Qed.
Lemma atan2_pert y x e1 e2 : Rabs e1 <= U -> Rabs e2 <= U -> Rabs (atan2R (y * (1 + e2)) (x * (1 + e1)) - atan2R y x) <= / 2 ^ 51.
Proof.
  intros H1 H2. assert (HU : 0 < U < / 1000) by (unfold U; simpl; lra). apply Rabs_le_inv in H1, H2.
  assert (Sy : (0 < y * (1 + e2) <-> 0 < y) /\ (y * (1 + e2) < 0 <-> y < 0)) by (split; split; intros; nra).
  assert (Sx : (0 < x * (1 + e1) <-> 0 < x) /\ (x * (1 + e1) < 0 <-> x < 0)) by (split; split; intros; nra).
  assert (D : x <> 0 -> Rabs (atan (y * (1 + e2) / (x * (1 + e1))) - atan (y / x)) <= / 2 ^ 51).
  { intros Nx. replace (y * (1 + e2) / (x * (1 + e1))) with (y / x * (1 + (e2 - e1) / (1 + e1))) by (field; split; lra).
    assert (B : Rabs ((e2 - e1) / (1 + e1)) <= / 2 ^ 51).
    { unfold Rdiv. rewrite Rabs_mult, Rabs_inv, (Rabs_pos_eq (1 + e1)) by lra. apply (Rmult_le_reg_r (1 + e1)); [lra|].
      rewrite Rmult_assoc, Rinv_l, Rmult_1_r by lra. apply Rabs_le. replace (/ 2 ^ 51) with (4 * U) by (unfold U; simpl; lra). nra. }
    eapply Rle_trans; [apply atan_pert; eapply Rle_trans; [exact B | simpl; lra] | exact B]. }
  assert (Z : 0 < / 2 ^ 51) by (simpl; lra). unfold atan2R.
  destruct (Rlt_dec 0 (x * (1 + e1))), (Rlt_dec 0 x); try (exfalso; tauto); [apply D; lra|].
  destruct (Rlt_dec (x * (1 + e1)) 0), (Rlt_dec x 0); try (exfalso; tauto).
  - destruct (Rlt_dec (y * (1 + e2)) 0), (Rlt_dec y 0); try (exfalso; tauto); specialize (D ltac:(lra));
      match goal with |- Rabs ?a <= _ => replace a with (atan (y * (1 + e2) / (x * (1 + e1))) - atan (y / x)) by ring end; exact D.
  - destruct (Rlt_dec 0 (y * (1 + e2))), (Rlt_dec 0 y); try (exfalso; tauto); [rewrite Rminus_diag_eq, Rabs_R0 by auto; lra|].
    destruct (Rlt_dec (y * (1 + e2)) 0), (Rlt_dec y 0); try (exfalso; tauto); rewrite Rminus_diag_eq, Rabs_R0 by auto; lra.
Qed.
