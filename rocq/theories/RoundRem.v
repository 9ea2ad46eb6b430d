(** * The binary64 remainder is exact (proofs for C68) *)
From Coq Require Import List ZArith Bool Reals Lra Lia Floats.SpecFloat.
From Flocq Require Import Core.Core IEEE754.BinarySingleNaN Digits.
From Verif Require Import Arith ArithR ArithF FloatLemmas FloatSpec FloatBound RoundSpec RoundTurn.
Local Open Scope R_scope.

#[local] Instance Hp64' : FLX.Prec_gt_0 53 := eq_refl.
#[local] Instance Hm64' : Prec_lt_emax 53 1024 := eq_refl.

Lemma finite_parts s m e : finite64 (S754_finite s m e) -> (Z.pos m < 2 ^ 53)%Z /\ (-1074 <= e)%Z /\ IZR (Z.pos m) * bp e < bp 1024.
Proof.
  intros [V _]. simpl in V. pose proof (bounded_lt_emax 53 1024 m e V) as B.
  apply andb_prop in V as [V _]. unfold canonical_mantissa in V. apply Zeq_bool_eq in V. unfold SpecFloat.fexp, SpecFloat.emin in V.
  split; [|split; [lia | exact B]].
  assert (D : (Z.pos (digits2_pos m) <= 53)%Z) by lia. rewrite Zpos_digits2_pos in D.
  pose proof (Zdigits_correct radix2 (Z.pos m)) as [_ C]. rewrite Z.abs_eq in C by lia. eapply Z.lt_le_trans; [exact C|].
  apply (Zpower_le radix2). exact D.
Qed.
Lemma Int_part_is r z : IZR z <= r < IZR z + 1 -> z = Int_part r.
Proof. intros [H1 H2]. unfold Int_part. rewrite <- (up_tech r z); [lia | auto | rewrite plus_IZR; simpl; lra]. Qed.
Lemma Int_part_div a b : (0 <= a)%Z -> (0 < b)%Z -> Int_part (IZR a / IZR b) = (a / b)%Z.
Proof.
  intros Ha Hb. assert (B : 0 < IZR b) by (apply (IZR_lt 0); auto). symmetry. apply Int_part_is.
  pose proof (Z.div_mod a b ltac:(lia)) as E. pose proof (Z.mod_pos_bound a b Hb) as [M1 M2].
  assert (Er : IZR a = IZR b * IZR (a / b) + IZR (a mod b)) by (rewrite <- mult_IZR, <- plus_IZR; now f_equal).
  apply IZR_le in M1. apply IZR_lt in M2.
  replace (IZR a / IZR b) with (IZR (a / b) + IZR (a mod b) / IZR b) by (rewrite Er at 1; field; lra).
  assert (0 <= IZR (a mod b) / IZR b) by (apply Rmult_le_pos; [lra | left; now apply Rinv_0_lt_compat]).
  assert (IZR (a mod b) / IZR b < 1) by (apply (Rmult_lt_reg_r (IZR b)); auto; unfold Rdiv; rewrite Rmult_assoc, Rinv_l; lra). lra.
Qed.
Lemma Rtrunc_quot a b : (0 < a)%Z -> (0 < b)%Z ->
  Rtrunc (IZR a / IZR b) = IZR (a / b) /\ Rtrunc (- (IZR a / IZR b)) = - IZR (a / b).
Proof.
  intros Ha Hb. assert (0 < IZR a) by now apply (IZR_lt 0). assert (0 < IZR b) by now apply (IZR_lt 0).
  assert (0 < IZR a / IZR b) by now apply Rdiv_lt_0_compat. unfold Rtrunc. split.
  - destruct (Rlt_dec _ _); [lra|]. now rewrite Int_part_div by lia.
  - destruct (Rlt_dec _ _); [|lra]. rewrite Ropp_involutive. now rewrite Int_part_div by lia.
Qed.
Lemma value_fin s m e : value (S754_finite s m e) = (if s then - (IZR (Z.pos m) * bp e) else IZR (Z.pos m) * bp e).
Proof. rewrite value_r64. unfold r64, SF2R, F2R. cbn [Fnum Fexp]. destruct s; cbn [cond_Zopp]; [change (Z.opp (Z.pos m)) with (- Z.pos m)%Z; rewrite opp_IZR|]; ring. Qed.
Lemma shift_bp m e e0 : (e0 <= e)%Z -> IZR m * bp e = IZR (m * 2 ^ (e - e0)) * bp e0.
Proof. intros H. rewrite mult_IZR. change 2%Z with (radix_val radix2). rewrite IZR_Zpower by lia. rewrite Rmult_assoc, <- bpow_plus. repeat f_equal. lia. Qed.

Lemma rem_exact x y : finite64 x -> finite64 y -> value y <> 0 ->
  finite64 (rem64 x y) /\ value (rem64 x y) = value x - value y * Rtrunc (value x / value y).
Proof.
  intros Hx Hy Ny. destruct y as [sy|sy| |sb mb eb]; try (exfalso; apply Ny; reflexivity).
  destruct x as [sx|sx| |sa ma ea]; try (destruct Hx as [_ Hx]; discriminate Hx).
  { split; [split; reflexivity|]. change (value (rem64 (S754_zero sx) (S754_finite sb mb eb))) with 0. change (value (S754_zero sx)) with 0.
    unfold Rdiv. rewrite Rmult_0_l. unfold Rtrunc. destruct (Rlt_dec 0 0); [lra|].
    rewrite <- (Int_part_is 0 0) by (simpl; lra). simpl. ring. }
  destruct (finite_parts _ _ _ Hx) as (Ma & La & Ba). destruct (finite_parts _ _ _ Hy) as (Mb & Lb & Bb).
  set (e := Z.min ea eb). set (a := (Z.pos ma * 2 ^ (ea - e))%Z). set (b := (Z.pos mb * 2 ^ (eb - e))%Z).
  assert (Ha : (0 < a)%Z) by (apply Z.mul_pos_pos; [lia | apply Z.pow_pos_nonneg; lia]).
  assert (Hb : (0 < b)%Z) by (apply Z.mul_pos_pos; [lia | apply Z.pow_pos_nonneg; lia]).
  assert (Ea : IZR (Z.pos ma) * bp ea = IZR a * bp e) by (apply shift_bp; lia).
  assert (Eb : IZR (Z.pos mb) * bp eb = IZR b * bp e) by (apply shift_bp; lia).
  pose proof (Z.mod_pos_bound a b Hb) as Mr. assert (Ml : (a mod b <= a)%Z) by (apply Z.mod_le; lia). set (r := (a mod b)%Z) in *.
  assert (R53 : (r < 2 ^ 53)%Z).
  { destruct (Z.min_spec ea eb) as [[_ E]|[_ E]]; fold e in E.
    - assert (a = Z.pos ma) by (unfold a; rewrite E, Z.sub_diag; lia). lia.
    - assert (b = Z.pos mb) by (unfold b; rewrite E, Z.sub_diag; lia). lia. }
  assert (Rb : IZR r * bp e < bp 1024). { rewrite Eb in Bb. eapply Rle_lt_trans; [|exact Bb]. apply Rmult_le_compat_r; [apply bpow_ge_0|]. apply IZR_le. lia. }
  assert (R0 : 0 <= IZR r * bp e) by (apply Rmult_le_pos; [apply (IZR_le 0); lia | apply bpow_ge_0]).
  set (z := (if sa then - r else r)%Z). assert (Az : Z.abs z = r) by (unfold z; destruct sa; lia).
  change (rem64 (S754_finite sa ma ea) (S754_finite sb mb eb)) with (SpecFloat.binary_normalize 53 1024 z e sa).
  assert (G : generic_format radix2 fexp64 (F2R (Float radix2 z e))).
  { apply (generic_format_FLT radix2 (-1074) 53). apply (FLT_spec _ _ _ _ (Float radix2 z e)); cbn [Fnum Fexp]; auto.
    - rewrite Az. exact R53.
    - lia. }
  pose proof (binary_normalize_correct 53 1024 Hprec64 Hmax64 mode_NE z e sa) as C. cbv zeta in C.
  change (round radix2 (SpecFloat.fexp 53 1024) (round_mode mode_NE) (F2R (Float radix2 z e))) with (rnd64 (F2R (Float radix2 z e))) in C.
  assert (Er : rnd64 (F2R (Float radix2 z e)) = F2R (Float radix2 z e)) by (apply round_generic; auto with typeclass_instances).
  assert (Ab : Rabs (F2R (Float radix2 z e)) = IZR r * bp e). { rewrite <- F2R_Zabs, Az. reflexivity. }
  rewrite Er, Ab in C. rewrite Rlt_bool_true in C by exact Rb. destruct C as (C1 & C2 & _).
  rewrite bn_equiv. split; [split; [apply valid_B2SF | now rewrite fin_B2SF]|].
  rewrite value_r64, r64_B2SF, C1, !value_fin, Ea, Eb.
  destruct (Rtrunc_quot a b Ha Hb) as [T1 T2]. assert (Pe : 0 < bp e) by apply bpow_gt_0. assert (Pb : 0 < IZR b) by now apply (IZR_lt 0).
  pose proof (Z.div_mod a b ltac:(lia)) as E. fold r in E.
  assert (EE : IZR a = IZR b * IZR (a / b) + IZR r) by (rewrite <- mult_IZR, <- plus_IZR; now f_equal).
  unfold z, F2R. cbn [Fnum Fexp].
  destruct sa, sb.
  - replace (- (IZR a * bp e) / - (IZR b * bp e)) with (IZR a / IZR b) by (field; split; lra). rewrite T1, opp_IZR, EE. ring.
  - replace (- (IZR a * bp e) / (IZR b * bp e)) with (- (IZR a / IZR b)) by (field; split; lra). rewrite T2, opp_IZR, EE. ring.
  - replace (IZR a * bp e / - (IZR b * bp e)) with (- (IZR a / IZR b)) by (field; split; lra). rewrite T2, EE. ring.
  - replace (IZR a * bp e / (IZR b * bp e)) with (IZR a / IZR b) by (field; split; lra). rewrite T1, EE. ring.
Qed.
