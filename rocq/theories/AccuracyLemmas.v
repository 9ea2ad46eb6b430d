(** * Rounding errors of lengths, directions and squares (proofs for C84) *)
From Coq Require Import List ZArith NArith Arith Bool Reals Lra Lia Floats.SpecFloat.
From Flocq Require Import Core.Core IEEE754.BinarySingleNaN Relative Mult_error.
From Verif Require Import Arith ArithR ArithF Vec Prim Cons Sketch Spec SpecLemmas FloatLemmas FloatSpec FloatBound
  ExactLemmas ExactSpec RoundSpec RoundTurn RoundArea AccuracySpec.
Import ListNotations.
Local Open Scope R_scope.
#[local] Instance Hp64' : FLX.Prec_gt_0 53 := eq_refl.
#[local] Instance Hm64' : Prec_lt_emax 53 1024 := eq_refl.
#[local] Instance Hve' : Valid_exp fexp64 := fexp_correct 53 1024 Hp64'.

(** ** real geometry *)
Lemma len_scal k v : len (k * fst v, k * snd v) = Rabs k * len v.
Proof.
  unfold len. cbn [fst snd]. rewrite <- (sqrt_Rsqr_abs k), <- sqrt_mult_alt by apply Rle_0_sqr. f_equal. unfold Rsqr. ring.
Qed.
Lemma len_tri u v : len (fst u + fst v, snd u + snd v) <= len u + len v.
Proof.
  pose proof (len_nonneg u) as U0. pose proof (len_nonneg v) as V0. pose proof (cauchy u v) as [_ C]. pose proof (len_sq u) as A. pose proof (len_sq v) as B.
  pose proof (len_sq (fst u + fst v, snd u + snd v)) as D. cbn [fst snd] in D. unfold dotR in C. pose proof (len_nonneg (fst u + fst v, snd u + snd v)) as W0.
  set (w := len (fst u + fst v, snd u + snd v)) in *. nra.
Qed.
Lemma len_le a b c d : Rabs a <= Rabs c -> Rabs b <= Rabs d -> len (a, b) <= len (c, d).
Proof.
  intros A B. unfold len. cbn [fst snd]. apply sqrt_le_1_alt. apply Rsqr_le_abs_1 in A, B. unfold Rsqr in *. lra.
Qed.
Lemma len_abs_sum a b : len (a, b) <= Rabs a + Rabs b.
Proof.
  apply Rsqr_incr_0_var; [|pose proof (Rabs_pos a); pose proof (Rabs_pos b); lra]. unfold Rsqr. rewrite len_sq. cbn [fst snd].
  pose proof (Rabs_pos a). pose proof (Rabs_pos b). assert (Rabs a * Rabs a = a * a) by (rewrite <- Rabs_mult; apply Rabs_pos_eq; nra).
  assert (Rabs b * Rabs b = b * b) by (rewrite <- Rabs_mult; apply Rabs_pos_eq; nra). nra.
Qed.
Lemma len_opp a b : len (- a, - b) = len (a, b). Proof. unfold len. cbn [fst snd]. f_equal. ring. Qed.
Lemma comp_le v : Rabs (fst v) <= len v /\ Rabs (snd v) <= len v.
Proof.
  pose proof (len_nonneg v). pose proof (len_sq v). split; apply Rabs_le; nra.
Qed.
Lemma len_comp e1 e2 c z v : 0 <= c -> 0 <= z -> Rabs e1 <= c * Rabs (fst v) + z -> Rabs e2 <= c * Rabs (snd v) + z -> len (e1, e2) <= c * len v + 2 * z.
Proof.
  intros C Z A B. eapply Rle_trans with (len (c * Rabs (fst v) + z, c * Rabs (snd v) + z)).
  { pose proof (Rabs_pos (fst v)). pose proof (Rabs_pos (snd v)). apply len_le; rewrite (Rabs_pos_eq (_ + _)); auto; nra. }
  eapply Rle_trans; [apply (len_tri (c * Rabs (fst v), c * Rabs (snd v)) (z, z))|]. apply Rplus_le_compat.
  - pose proof (len_scal c (Rabs (fst v), Rabs (snd v))) as Q. cbn [fst snd] in Q. rewrite Q, Rabs_pos_eq by auto. apply Rmult_le_compat_l; auto. destruct v as [v1 v2]. apply len_le; rewrite Rabs_Rabsolu; apply Rle_refl.
  - eapply Rle_trans; [apply len_abs_sum|]. rewrite Rabs_pos_eq by auto. lra.
Qed.
Lemma len_near u v : Rabs (len u - len v) <= len (fst u - fst v, snd u - snd v).
Proof.
  pose proof (len_tri v (fst u - fst v, snd u - snd v)) as A. cbn [fst snd] in A. replace (fst v + (fst u - fst v)) with (fst u) in A by ring. replace (snd v + (snd u - snd v)) with (snd u) in A by ring.
  pose proof (len_tri u (- (fst u - fst v), - (snd u - snd v))) as B. rewrite len_opp in B. cbn [fst snd] in B. replace (fst u + - (fst u - fst v)) with (fst v) in B by ring. replace (snd u + - (snd u - snd v)) with (snd v) in B by ring.
  rewrite <- !surjective_pairing in *. apply Rabs_le. lra.
Qed.
Lemma cross_le u v : Rabs (crossR u v) <= len u * len v.
Proof. apply Rabs_le. pose proof (cauchy u (snd v, - fst v)) as C. unfold crossR, dotR in *. cbn [fst snd] in C. replace (len (snd v, - fst v)) with (len v) in C; [lra|]. unfold len. cbn [fst snd]. f_equal. ring. Qed.
Lemma dot_le u v : Rabs (dotR u v) <= len u * len v.
Proof. apply Rabs_le. pose proof (cauchy u v). lra. Qed.
(** square roots of numbers that are nearly equal *)
Lemma sqrt_near a b c z : 0 <= a -> 0 <= b -> 0 <= c <= 1 -> 0 <= z -> Rabs (a - b) <= c * b + z * z -> Rabs (sqrt a - sqrt b) <= c * sqrt b + 2 * z.
Proof.
  intros A B C Z D. set (x := sqrt a). set (y := sqrt b). assert (X : 0 <= x) by apply sqrt_pos. assert (Y : 0 <= y) by apply sqrt_pos.
  assert (Ex : a = x * x) by (unfold x; now rewrite sqrt_sqrt). assert (Ey : b = y * y) by (unfold y; now rewrite sqrt_sqrt). rewrite Ex, Ey in D. apply Rabs_le_inv in D.
  apply Rabs_le. split.
  - destruct (Rle_dec (y * (1 - c)) (x + 2 * z)) as [|Q]; [lra|]. exfalso. apply Rnot_le_lt in Q. assert (W : 0 <= x + 2 * z) by lra.
    assert (Q2 : (x + 2 * z) * (x + 2 * z) < (y * (1 - c)) * (y * (1 - c))) by (apply Rmult_le_0_lt_compat; lra).
    assert (0 <= x * z) by now apply Rmult_le_pos. assert (0 <= (y * y) * ((1 - c) * c)) by (apply Rmult_le_pos; [nra|]; apply Rmult_le_pos; lra). assert (0 <= z * z) by nra. lra.
  - destruct (Rle_dec x (y * (1 + c) + 2 * z)) as [|Q]; [lra|]. exfalso. apply Rnot_le_lt in Q. assert (P : 0 <= y * (1 + c)) by (apply Rmult_le_pos; lra). assert (W : 0 <= y * (1 + c) + 2 * z) by lra.
    assert (Q2 : (y * (1 + c) + 2 * z) * (y * (1 + c) + 2 * z) < x * x) by (apply Rmult_le_0_lt_compat; lra).
    assert (0 <= y * (1 + c) * z) by now apply Rmult_le_pos. assert (0 <= (y * y) * ((1 + c) * c)) by (apply Rmult_le_pos; [nra|]; apply Rmult_le_pos; lra). assert (0 <= z * z) by nra.
    assert (0 <= (y * (1 + c)) * (y * (1 + c)) - y * y * (1 + c)) by (replace (y * (1 + c) * (y * (1 + c)) - y * y * (1 + c)) with (y * y * ((1 + c) * c)) by ring; lra). lra.
Qed.

(** ** single operations *)
Definition t : R := bp (-420).
Lemma t_pos : 0 < t. Proof. apply bpow_gt_0. Qed.
Lemma eta_t : 0 < eta /\ 100 * eta <= t * t /\ t <= / 1000 /\ eta <= t.
Proof.
  assert (E : eta * bp 20 <= t * t) by (unfold eta, t; rewrite <- !bpow_plus; apply bpow_le; lia).
  assert (P : 0 < eta) by apply bpow_gt_0. assert (B : 100 <= bp 20) by (change (bp 20) with 1048576; lra).
  assert (T : t <= / 1000). { apply Rle_trans with (bp (-20)); [apply bpow_le; lia|]. change (bp (-20)) with (/ 1048576). lra. }
  assert (H : 100 * eta <= t * t) by (apply Rle_trans with (eta * bp 20); auto; rewrite (Rmult_comm 100); apply Rmult_le_compat_l; lra).
  split; auto. split; auto. split; auto. pose proof t_pos. assert (t * t <= t * / 1000) by (apply Rmult_le_compat_l; lra). lra.
Qed.
Definition big : R := bp 500.
(** the number [x] is finite and stands for [a], which is at most [m], with an error of at most [e] *)
Definition ap (x : spec_float) (a m e : R) : Prop := finite64 x /\ Rabs a <= m /\ Rabs (value x - a) <= e.
Lemma ap_value x a m e : ap x a m e -> Rabs (value x) <= m + e.
Proof. intros (_ & A & B). replace (value x) with ((value x - a) + a) by ring. eapply Rle_trans; [apply Rabs_triang|]. lra. Qed.
Lemma ap_weaken x a m e m' e' : ap x a m e -> m <= m' -> e <= e' -> ap x a m' e'.
Proof. intros (A & B & C) ? ?. split; [auto|]. split; lra. Qed.
Lemma ap_exact x M : within M x -> ap x (value x) M 0.
Proof. intros [A B]. split; auto. split; auto. rewrite Rminus_diag_eq, Rabs_R0 by auto. lra. Qed.
Lemma big_lt x : Rabs x <= big -> Rabs (rnd64 x) < bpow radix2 1024.
Proof. intros B. apply Rle_lt_trans with (bp 500); [apply rnd_le; auto; lia | apply bp_lt; lia]. Qed.
Lemma big_lt' x k : (k <= 1023)%Z -> (-1074 <= k)%Z -> Rabs x <= bp k -> Rabs (rnd64 x) < bpow radix2 1024.
Proof. intros K K' B. apply Rle_lt_trans with (bp k); [apply rnd_le; auto | apply bp_lt; lia]. Qed.
Lemma op_ap z r a m e : finite64 z -> value z = rnd64 r -> Rabs a <= m -> Rabs (r - a) <= e -> ap z a m (e + U * (m + e) + eta).
Proof.
  intros F E A B. split; auto. split; auto. rewrite E. pose proof (rnd_std r) as S. assert (R : Rabs r <= m + e).
  { replace r with ((r - a) + a) by ring. eapply Rle_trans; [apply Rabs_triang|]. lra. }
  replace (rnd64 r - a) with ((rnd64 r - r) + (r - a)) by ring. eapply Rle_trans; [apply Rabs_triang|].
  assert (U * Rabs r <= U * (m + e)) by (apply Rmult_le_compat_l; [unfold U; apply Rlt_le, Rinv_0_lt_compat, pow_lt|]; lra). lra.
Qed.
Lemma ap_sub x y a b m n e f : ap x a m e -> ap y b n f -> m + n + e + f <= big ->
  ap (SFsub 53 1024 x y) (a - b) (m + n) (e + f + U * (m + n + (e + f)) + eta).
Proof.
  intros X Y G. pose proof (ap_value _ _ _ _ X) as VX. pose proof (ap_value _ _ _ _ Y) as VY. destruct X as (X1 & X2 & X3), Y as (Y1 & Y2 & Y3).
  destruct (sub_real x y X1 Y1) as [R E].
  { rewrite <- !value_r64. apply big_lt. unfold Rminus. eapply Rle_trans; [apply Rabs_triang|]. rewrite Rabs_Ropp. lra. }
  rewrite <- !value_r64 in E. apply (op_ap _ _ _ _ _ R E).
  - unfold Rminus. eapply Rle_trans; [apply Rabs_triang|]. rewrite Rabs_Ropp. lra.
  - replace (value x - value y - (a - b)) with ((value x - a) - (value y - b)) by ring. unfold Rminus at 1. eapply Rle_trans; [apply Rabs_triang|]. rewrite Rabs_Ropp. lra.
Qed.
Lemma ap_add x y a b m n e f : ap x a m e -> ap y b n f -> m + n + e + f <= big ->
  ap (SFadd 53 1024 x y) (a + b) (m + n) (e + f + U * (m + n + (e + f)) + eta).
Proof.
  intros X Y G. pose proof (ap_value _ _ _ _ X) as VX. pose proof (ap_value _ _ _ _ Y) as VY. destruct X as (X1 & X2 & X3), Y as (Y1 & Y2 & Y3).
  destruct (add_real x y X1 Y1) as [R E].
  { rewrite <- !value_r64. apply big_lt. eapply Rle_trans; [apply Rabs_triang|]. lra. }
  rewrite <- !value_r64 in E. apply (op_ap _ _ _ _ _ R E).
  - eapply Rle_trans; [apply Rabs_triang|]. lra.
  - replace (value x + value y - (a + b)) with ((value x - a) + (value y - b)) by ring. eapply Rle_trans; [apply Rabs_triang|]. lra.
Qed.
Lemma ap_mul x y a b m n e f : ap x a m e -> ap y b n f -> (m + e) * (n + f) <= big ->
  ap (SFmul 53 1024 x y) (a * b) (m * n) (e * n + (m + e) * f + U * (m * n + (e * n + (m + e) * f)) + eta).
Proof.
  intros X Y G. pose proof (ap_value _ _ _ _ X) as VX. pose proof (ap_value _ _ _ _ Y) as VY. destruct X as (X1 & X2 & X3), Y as (Y1 & Y2 & Y3).
  pose proof (Rabs_pos a). pose proof (Rabs_pos b). pose proof (Rabs_pos (value x)). pose proof (Rabs_pos (value y)). pose proof (Rabs_pos (value x - a)). pose proof (Rabs_pos (value y - b)).
  destruct (mul_real x y X1 Y1) as [R E].
  { rewrite <- !value_r64. apply big_lt. rewrite Rabs_mult. eapply Rle_trans; [|exact G]. apply Rmult_le_compat; lra. }
  rewrite <- !value_r64 in E. apply (op_ap _ _ _ _ _ R E).
  - rewrite Rabs_mult. apply Rmult_le_compat; lra.
  - replace (value x * value y - a * b) with ((value x - a) * b + value x * (value y - b)) by ring. eapply Rle_trans; [apply Rabs_triang|]. rewrite !Rabs_mult.
    apply Rplus_le_compat; apply Rmult_le_compat; lra.
Qed.
Lemma rnd_pos x : 0 <= x -> 0 <= rnd64 x. Proof. apply rnd_nonneg. Qed.

(** ** half squares, norms *)
Lemma U_small : 0 < U < / 1000000. Proof. unfold U. simpl. lra. Qed.
Section FL.
Variable L : libm.
#[local] Instance AF : Arith spec_float := ArithF L.
Lemma half_val : finite64 (fhalf : spec_float) /\ value (fhalf : spec_float) = / 2.
Proof.
  split; [split; reflexivity|]. replace (fhalf : spec_float) with (S754_finite false 4503599627370496 (-53)) by reflexivity.
  rewrite value_r64. unfold r64, SF2R, F2R. cbn [Fnum Fexp]. change (bp (-53)) with (/ 9007199254740992). cbv [cond_Zopp]. lra.
Qed.
(** 0.5 x *)
Lemma half_mul x : finite64 x -> Rabs (value x) <= bp 1000 ->
  finite64 (fhalf *f x) /\ value (fhalf *f x) = rnd64 (/ 2 * value x) /\ Rabs (value (fhalf *f x) - / 2 * value x) <= eta.
Proof.
  intros X1 B. destruct (half_val) as [HF HV]. set (v := value x) in *. pose proof eta_t as (T1 & _).
  change (@fmul _ AF) with (SFmul 53 1024). set (hx := SFmul 53 1024 fhalf x).
  destruct (mul_real fhalf x HF X1) as [F1 E1].
  { rewrite <- !value_r64, HV. apply (big_lt' _ 1000); [lia | lia|]. fold v. rewrite Rabs_mult, Rabs_pos_eq by lra. pose proof (Rabs_pos v). lra. }
  rewrite <- !value_r64, HV in E1. change (value hx = rnd64 (/ 2 * v)) in E1. change (finite64 hx) in F1. split; auto. split; auto.
  rewrite E1. destruct (Rle_dec (bp (-1021)) (Rabs v)) as [Big|Small].
    - rewrite round_generic; [rewrite Rminus_diag_eq, Rabs_R0 by auto; lra | auto with typeclass_instances|].
      assert (V64 : generic_format radix2 fexp64 v) by (unfold v; rewrite value_r64; apply r64_fmt, X1).
      destruct (Req_dec v 0) as [Z|NZ]; [rewrite Z, Rmult_0_r; apply generic_format_0|].
      change (/ 2) with (bp (-1)). rewrite Rmult_comm. apply mult_bpow_exact_FLT with (emin := (-1074)%Z) (prec := 53%Z); auto.
      assert (M : (-1021 < mag radix2 v)%Z) by (apply mag_gt_bpow; exact Big). lia.
    - assert (Bv : Rabs (/ 2 * v) <= bp (-1022)). { rewrite Rabs_mult, (Rabs_pos_eq (/ 2)) by lra. change (-1022)%Z with (-1 + -1021)%Z. rewrite bpow_plus. change (bp (-1)) with (/ 2). lra. }
      eapply Rle_trans; [apply (error_le_half_ulp radix2 fexp64 (fun x => negb (Z.even x)))|]. 
      rewrite (ulp_FLT_small radix2 (-1074) 53); [unfold eta; replace (-1075)%Z with (-1 + -1074)%Z by lia; rewrite bpow_plus; change (bp (-1)) with (/ 2); lra|].
      eapply Rle_lt_trans; [exact Bv|]. apply bp_lt. lia.
Qed.
(** 0.5 x x *)
Lemma half_sq_ap x a m e : ap x a m e -> m + e <= bp 200 ->
  finite64 (half_sq x) /\ 0 <= value (half_sq x) <= bp 450 /\ Rabs (sqrt (2 * value (half_sq x)) - Rabs a) <= e + U * (m + e) + 4 * t.
Proof.
  intros X G. destruct (half_val) as [HF HV]. pose proof (ap_value _ _ _ _ X) as VX. destruct X as (X1 & X2 & X3). set (v := value x) in *.
  assert (B2 : bp 200 * bp 200 = bp 400) by (rewrite <- bpow_plus; reflexivity). pose proof (Rabs_pos v) as V0. pose proof eta_t as (T1 & T2 & T3 & T4). pose proof U_small as US. pose proof t_pos as TP.
  unfold half_sq. change (@fmul _ AF) with (SFmul 53 1024). set (hx := SFmul 53 1024 fhalf x).
  destruct (half_mul x X1) as (F1 & E1 & S1); [fold v; apply Rle_trans with (bp 200); [lra | apply bp_le; lia]|].
  change (value hx = rnd64 (/ 2 * v)) in E1. change (finite64 hx) in F1. change (Rabs (value hx - / 2 * v) <= eta) in S1.
  assert (SG : 0 <= value hx * v).
  { rewrite E1. destruct (Rle_dec 0 v) as [P|P].
    - apply Rmult_le_pos; auto. apply rnd_nonneg. lra.
    - assert (Q : rnd64 (/ 2 * v) <= 0). { rewrite <- (round_0 radix2 fexp64 (round_mode mode_NE)). apply round_le; auto with typeclass_instances. lra. } nra. }
  assert (HB : Rabs (value hx) <= bp 200). { rewrite E1. apply rnd_le; [lia|]. rewrite Rabs_mult, Rabs_pos_eq by lra. lra. }
  destruct (mul_real hx x F1 X1) as [F2 E2].
  { rewrite <- !value_r64. fold v. apply (big_lt' _ 400); [lia | lia|]. rewrite Rabs_mult, <- B2. apply Rmult_le_compat; auto using Rabs_pos. lra. }
  rewrite <- !value_r64 in E2. fold v in E2. split; [exact F2|]. rewrite E2. assert (R0 : 0 <= rnd64 (value hx * v)) by now apply rnd_nonneg.
  split. { split; auto. rewrite <- (Rabs_pos_eq (rnd64 _)) by auto. apply rnd_le; [lia|]. rewrite Rabs_mult. apply Rle_trans with (bp 400); [rewrite <- B2; apply Rmult_le_compat; auto using Rabs_pos; lra | apply bp_le; lia]. }
  pose proof (rnd_std (value hx * v)) as S2. rewrite (Rabs_pos_eq (value hx * v)) in S2 by auto.
  assert (VV : v * v = Rabs v * Rabs v) by (rewrite <- Rabs_mult; symmetry; apply Rabs_pos_eq; nra).
  assert (D1 : Rabs (value hx * v - v * v / 2) <= eta * Rabs v).
  { replace (value hx * v - v * v / 2) with ((value hx - / 2 * v) * v) by field. rewrite Rabs_mult. apply Rmult_le_compat_r; auto. }
  assert (EV : eta * Rabs v <= t * t / 1000).
  { apply Rle_trans with (eta * bp 200); [apply Rmult_le_compat_l; lra|]. 
    unfold eta, t. rewrite <- !bpow_plus. apply Rle_trans with (bp (-840 + -20)); [apply bpow_le; lia|]. rewrite bpow_plus. change (bp (-20)) with (/ 1048576). pose proof (bpow_gt_0 radix2 (-840)). simpl (-420 + -420)%Z. lra. }
  assert (D2 : Rabs (2 * rnd64 (value hx * v) - v * v) <= U * (v * v) + t * t).
  { apply Rabs_le_inv in D1, S2. apply Rabs_le. assert (U * (value hx * v) <= U * (v * v / 2 + t * t / 1000)) by (apply Rmult_le_compat_l; lra). nra. }
  assert (N := sqrt_near (2 * rnd64 (value hx * v)) (v * v) U t ltac:(lra) ltac:(nra) ltac:(lra) ltac:(lra) D2).
  rewrite VV, (sqrt_square (Rabs v)) in N by auto. assert (UV : U * Rabs v <= U * (m + e)) by (apply Rmult_le_compat_l; lra).
  assert (DA : Rabs (Rabs v - Rabs a) <= e) by (eapply Rle_trans; [apply Rabs_triang_inv2 | exact X3]). apply Rabs_le_inv in N, DA. apply Rabs_le. lra.
Qed.

(** ** norms and unit vectors *)
Definition val2 (d : spec_float * spec_float) : R * R := (value (fst d), value (snd d)).
Definition sub2 (u v : R * R) : R * R := (fst u - fst v, snd u - snd v).
(** a vector of finite numbers that stands for [v] *)
Definition apv (d : spec_float * spec_float) (v : R * R) (m e : R) : Prop :=
  finite64 (fst d) /\ finite64 (snd d) /\ len v <= m /\ len (sub2 (val2 d) v) <= e.
Lemma apv_len d v m e : apv d v m e -> len (val2 d) <= m + e.
Proof. intros (_ & _ & A & B). pose proof (len_near (val2 d) v) as N. fold (sub2 (val2 d) v) in N. apply Rabs_le_inv in N. lra. Qed.
Lemma norm2_fl d : finite64 (fst d) -> finite64 (snd d) -> len (val2 d) <= bp 200 ->
  finite64 (v2norm2 d) /\ 0 <= value (v2norm2 d) <= bp 450 /\ Rabs (sqrt (value (v2norm2 d)) - len (val2 d)) <= 3 * U * len (val2 d) + 2 * t.
Proof.
  intros F1 F2 B. set (x := fst d) in *. set (y := snd d) in *. pose proof (comp_le (val2 d)) as [Bx By]. unfold val2 in *. fold x y in Bx, By, B |- *. cbn [fst snd] in *.
  set (n := len (value x, value y)) in *. assert (NN : n * n = value x * value x + value y * value y) by (unfold n; rewrite len_sq; reflexivity). assert (N0 : 0 <= n) by apply len_nonneg.
  pose proof eta_t as (T1 & T2 & T3 & T4). pose proof U_small as US. pose proof t_pos as TP.
  assert (B2 : bp 200 * bp 200 = bp 400) by (rewrite <- bpow_plus; reflexivity). assert (NB : n * n <= bp 400) by (rewrite <- B2; apply Rmult_le_compat; lra).
  unfold v2norm2, v2dot. fold x y. change (@fmul _ AF) with (SFmul 53 1024). change (@fadd _ AF) with (SFadd 53 1024).
  assert (Q : forall z, finite64 z -> value z * value z <= n * n -> finite64 (SFmul 53 1024 z z) /\ 0 <= value (SFmul 53 1024 z z) <= bp 400 /\ Rabs (value (SFmul 53 1024 z z) - value z * value z) <= U * (value z * value z) + eta).
  { intros z Fz Bz. assert (Z0 : 0 <= value z * value z) by nra. destruct (mul_real z z Fz Fz) as [F E].
    { rewrite <- !value_r64. apply (big_lt' _ 400); [lia | lia|]. rewrite Rabs_pos_eq by auto. lra. }
    rewrite <- !value_r64 in E. split; auto. rewrite E. pose proof (rnd_std (value z * value z)) as S. rewrite (Rabs_pos_eq (value z * value z)) in S by auto.
    split; auto. split; [now apply rnd_nonneg|]. rewrite <- (Rabs_pos_eq (rnd64 _)) by now apply rnd_nonneg. apply rnd_le; [lia|]. rewrite Rabs_pos_eq by auto. lra. }
  destruct (Q x F1) as (G1 & G2 & G3); [nra|]. destruct (Q y F2) as (H1 & H2 & H3); [nra|]. clear Q.
  set (p := SFmul 53 1024 x x) in *. set (q := SFmul 53 1024 y y) in *.
  assert (B4 : bp 400 + bp 400 <= bp 450). { apply Rle_trans with (bp 1 * bp 400); [change (bp 1) with 2; lra | rewrite <- bpow_plus; apply bpow_le; lia]. }
  destruct (add_real p q G1 H1) as [F E].
  { rewrite <- !value_r64. apply (big_lt' _ 450); [lia | lia|]. rewrite Rabs_pos_eq by lra. lra. }
  rewrite <- !value_r64 in E. split; auto. rewrite E. pose proof (rnd_std (value p + value q)) as S. rewrite (Rabs_pos_eq (value p + value q)) in S by lra.
  assert (R0 : 0 <= rnd64 (value p + value q)) by (apply rnd_nonneg; lra). split. { split; auto. rewrite <- (Rabs_pos_eq (rnd64 _)) by auto. apply rnd_le; [lia|]. rewrite Rabs_pos_eq by lra. lra. }
  replace n with (sqrt (n * n)) by now apply sqrt_square. apply sqrt_near; [exact R0 | apply Rmult_le_pos; exact N0 | lra | lra |].
  apply Rabs_le_inv in G3, H3, S. assert (UE : U * (n * n) = U * (value x * value x) + U * (value y * value y)) by (rewrite NN; ring). assert (P : value p + value q <= (1 + U) * (n * n) + 2 * eta) by lra.
  assert (P2 : U * (value p + value q) <= U * ((1 + U) * (n * n) + 2 * eta)) by (apply Rmult_le_compat_l; lra).
  assert (UN : 0 <= U * (n * n)) by (apply Rmult_le_pos; nra). assert (UUN : U * (U * (n * n)) <= U * (n * n)) by nra. apply Rabs_le. nra.
Qed.
Lemma norm2_ap d v m e : apv d v m e -> m + e <= bp 200 ->
  finite64 (v2norm2 d) /\ 0 <= value (v2norm2 d) <= bp 450 /\ Rabs (sqrt (value (v2norm2 d)) - len v) <= e + 3 * U * (m + e) + 2 * t.
Proof.
  intros X G. pose proof (apv_len _ _ _ _ X) as VL. destruct X as (F1 & F2 & X1 & X2). destruct (norm2_fl d F1 F2 ltac:(lra)) as (N1 & N2 & N3). split; auto. split; auto.
  pose proof (len_near (val2 d) v) as N. fold (sub2 (val2 d) v) in N. pose proof U_small. assert (U * len (val2 d) <= U * (m + e)) by (apply Rmult_le_compat_l; lra).
  change (Rabs (sqrt (value (v2norm2 d)) - len (val2 d)) <= 3 * U * len (val2 d) + 2 * t) in N3.
  apply Rabs_le_inv in N, N3. apply Rabs_le. lra.
Qed.
Lemma norm_ap d v m e : apv d v m e -> m + e <= bp 200 -> ap (v2norm d) (len v) m (e + 5 * U * (m + e) + 4 * t).
Proof.
  intros X G. destruct (norm2_ap d v m e X G) as (N1 & N2 & N3). destruct X as (F1 & F2 & X1 & X2). unfold v2norm. change (@fsqrt _ AF) with (SFsqrt 53 1024).
  set (q := v2norm2 d) in *. pose proof (len_nonneg v) as L0. pose proof (len_nonneg (sub2 (val2 d) v)) as L1.
  destruct (sqrt_real q N1) as [F E]; [rewrite <- value_r64; lra|]. rewrite <- !value_r64 in E. split; auto. split; [rewrite Rabs_pos_eq; lra|].
  rewrite E. pose proof (rnd_std (sqrt (value q))) as S. rewrite (Rabs_pos_eq (sqrt _)) in S by apply sqrt_pos. apply Rabs_le_inv in N3.
  pose proof U_small as US. pose proof eta_t as (T1 & T2 & T3 & T4). pose proof t_pos as TP.
  assert (Q : U * sqrt (value q) <= U * ((m + e) + 3 * U * (m + e) + 2 * t)) by (apply Rmult_le_compat_l; lra).
  assert (UU : 0 <= U * (m + e)) by (apply Rmult_le_pos; lra). assert (3 * (U * (U * (m + e))) <= U * (m + e) / 1000) by nra. assert (U * (2 * t) <= t / 1000) by nra.
  apply Rabs_le_inv in S. apply Rabs_le. lra.
Qed.
(** half the square of a norm *)
Lemma half_norm2_ap d v m e : apv d v m e -> m + e <= bp 200 ->
  finite64 (fhalf *f v2norm2 d) /\ 0 <= value (fhalf *f v2norm2 d) <= bp 450 /\ Rabs (sqrt (2 * value (fhalf *f v2norm2 d)) - len v) <= e + 3 * U * (m + e) + 4 * t.
Proof.
  intros X G. destruct (norm2_ap d v m e X G) as (N1 & N2 & N3). set (q := v2norm2 d) in *.
  destruct (half_mul q N1) as (F & E & S). { rewrite Rabs_pos_eq by lra. apply Rle_trans with (bp 450); [lra | apply bp_le; lia]. }
  change (@fmul _ (ArithF L)) with (@fmul _ AF) in *. split; auto. pose proof eta_t as (T1 & T2 & T3 & T4). pose proof t_pos as TP.
  assert (R0 : 0 <= value (fhalf *f q)) by (rewrite E; apply rnd_nonneg; lra).
  split. { split; auto. rewrite E, <- (Rabs_pos_eq (rnd64 _)) by (apply rnd_nonneg; lra). apply rnd_le; [lia|]. rewrite Rabs_pos_eq; lra. }
  apply Rabs_le_inv in S. assert (D1 : Rabs (2 * value (fhalf *f q) - value q) <= 0 * value q + t * t) by (apply Rabs_le; rewrite Rmult_0_l; lra).
  assert (D2 : Rabs (sqrt (2 * value (fhalf *f q)) - sqrt (value q)) <= 0 * sqrt (value q) + 2 * t).
  { apply sqrt_near; [lra | lra | split; lra | lra | exact D1]. }
  apply Rabs_le_inv in D2, N3. apply Rabs_le. lra.
Qed.
(** the difference of two exact vectors *)
Lemma sub_rel2 M u w : M <= bp 101 -> within M (fst u) -> within M (snd u) -> within M (fst w) -> within M (snd w) ->
  let v := sub2 (val2 u) (val2 w) in apv (v2sub u w) v (len v) (U * len v + 2 * eta) /\ len v <= 3 * M.
Proof.
  intros MB A1 A2 B1 B2 v. pose proof eta_t as (T1 & T2 & T3 & T4). pose proof U_small as US.
  assert (Q : forall a b, within M a -> within M b -> finite64 (SFsub 53 1024 a b) /\ Rabs (value (SFsub 53 1024 a b) - (value a - value b)) <= U * Rabs (value a - value b) + eta /\ Rabs (value a - value b) <= 2 * M).
  { intros a b [Fa Ba] [Fb Bb]. assert (Rabs (value a - value b) <= 2 * M) by (unfold Rminus; eapply Rle_trans; [apply Rabs_triang|]; rewrite Rabs_Ropp; lra).
    destruct (sub_real a b Fa Fb) as [F E].
    { rewrite <- !value_r64. apply (big_lt' _ 102); [lia | lia|]. change 102%Z with (1 + 101)%Z. rewrite bpow_plus. change (bp 1) with 2. lra. }
    rewrite <- !value_r64 in E. split; auto. rewrite E. split; auto. apply rnd_std. }
  destruct (Q _ _ A1 B1) as (F1 & E1 & G1). destruct (Q _ _ A2 B2) as (F2 & E2 & G2). split.
  - split; [exact F1|]. split; [exact F2|]. split; [lra|]. apply len_comp; auto; lra.
  - assert (LV0 : 0 <= len v) by apply len_nonneg. pose proof (len_sq v) as LS. change (len v * len v = (value (fst u) - value (fst w)) * (value (fst u) - value (fst w)) + (value (snd u) - value (snd w)) * (value (snd u) - value (snd w))) in LS. apply Rabs_le_inv in G1, G2. assert (0 <= M) by lra.
    assert (QQ : forall z, - (2 * M) <= z <= 2 * M -> z * z <= 4 * (M * M)) by (intros; nra). pose proof (QQ _ G1). pose proof (QQ _ G2). nra.
Qed.
Lemma tU : t <= U / 1000.
Proof.
  apply Rle_trans with (bp (-53) * bp (-10)); [rewrite <- bpow_plus; apply bpow_le; lia|]. rewrite <- U_bp. change (bp (-10)) with (/ 1024). pose proof U_small. lra.
Qed.
(** unit vectors *)
Definition unit2 (v : R * R) : R * R := (fst v / len v, snd v / len v).
Lemma unit2_len v : 0 < len v -> len (unit2 v) = 1.
Proof.
  intros P. unfold unit2. replace (fst v / len v) with (/ len v * fst v) by (unfold Rdiv; ring). replace (snd v / len v) with (/ len v * snd v) by (unfold Rdiv; ring).
  rewrite len_scal, Rabs_pos_eq by (apply Rlt_le, Rinv_0_lt_compat; lra). apply Rinv_l. lra.
Qed.
Lemma normalize_ap d v : bp (-100) <= len v <= bp 105 -> apv d v (len v) (U * len v + 2 * eta) ->
  apv (v2normalize d) (unit2 v) 1 (9 * U).
Proof.
  intros [B1 B2] X. set (l := len v) in *. pose proof U_small as US. pose proof eta_t as (T1 & T2 & T3 & T4). pose proof t_pos as TP. assert (L0 : 0 < l) by (pose proof (bpow_gt_0 radix2 (-100)); lra).
  assert (TU : t <= U * l / 1000).
  { apply Rle_trans with (bp (-53) * bp (-100) * bp (-10)); [rewrite <- !bpow_plus; apply bpow_le; lia|]. rewrite <- U_bp. change (bp (-10)) with (/ 1024).
    assert (U * bp (-100) <= U * l) by (apply Rmult_le_compat_l; lra). assert (0 < bp (-100)) by apply bpow_gt_0. nra. }
  assert (UL : 0 < U * l) by nra. assert (UL2 : U * l <= l / 1000000) by nra.
  assert (G : l + (U * l + 2 * eta) <= bp 200). { apply Rle_trans with (2 * bp 105); [lra|]. change 2 with (bp 1). rewrite <- bpow_plus. apply bpow_le. lia. }
  pose proof (norm_ap d v _ _ X G) as N. pose proof (apv_len _ _ _ _ X) as VL. destruct X as (F1 & F2 & _ & X). fold l in N. 
  unfold v2normalize. set (n := v2norm d) in *. destruct N as (N1 & _ & N3). assert (N4 : Rabs (value n - l) <= 61 / 10 * (U * l)) by (eapply Rle_trans; [exact N3|]; nra). clear N3.
  apply Rabs_le_inv in N4. assert (NP : 9 / 10 * l <= value n) by lra. assert (NP0 : 0 < value n) by lra. set (w := value n) in *.
  assert (IL : l / w <= 11 / 10). { apply (Rmult_le_reg_r w); auto. unfold Rdiv at 1. rewrite Rmult_assoc, Rinv_l by lra. nra. }
  assert (I0 : 0 < l / w) by (apply Rdiv_lt_0_compat; lra).
  assert (Q : forall x, finite64 x -> Rabs (value x) <= len (val2 d) -> finite64 (SFdiv 53 1024 x n) /\ Rabs (value (SFdiv 53 1024 x n) - value x / w) <= U * Rabs (value x / w) + eta).
  { intros x Fx Bx. assert (Bq : Rabs (value x / w) <= 2).
    { unfold Rdiv. rewrite Rabs_mult, (Rabs_pos_eq (/ w)) by (apply Rlt_le, Rinv_0_lt_compat; lra). apply Rle_trans with (11 / 10 * l * / w); [apply Rmult_le_compat_r; [apply Rlt_le, Rinv_0_lt_compat|]; lra|].
      replace (11 / 10 * l * / w) with (11 / 10 * (l / w)) by (unfold Rdiv; ring). lra. }
    destruct (div_real x n Fx N1) as [F E]; [rewrite <- value_r64; fold w; lra | |].
    { rewrite <- !value_r64. fold w. apply (big_lt' _ 1); [lia | lia|]. change (bp 1) with 2. exact Bq. }
    rewrite <- !value_r64 in E. fold w in E. split; auto. rewrite E. apply rnd_std. }
  pose proof (comp_le (val2 d)) as [C1 C2]. destruct (Q _ F1 C1) as (G1 & K1). destruct (Q _ F2 C2) as (G2 & K2). clear Q.
  split; [exact G1|]. split; [exact G2|]. split; [rewrite unit2_len by exact L0; lra|].
  set (q := (value (fst d) / w, value (snd d) / w)).
  assert (LQ : len q <= 11 / 10 * (1001 / 1000)).
  { unfold q. replace (value (fst d) / w) with (/ w * fst (val2 d)) by (unfold Rdiv, val2; cbn; ring). replace (value (snd d) / w) with (/ w * snd (val2 d)) by (unfold Rdiv, val2; cbn; ring).
    rewrite len_scal, Rabs_pos_eq by (apply Rlt_le, Rinv_0_lt_compat; lra). apply Rle_trans with (/ w * (1001 / 1000 * l)); [apply Rmult_le_compat_l; [apply Rlt_le, Rinv_0_lt_compat|]; lra|].
    replace (/ w * (1001 / 1000 * l)) with (l / w * (1001 / 1000)) by (unfold Rdiv; ring). lra. }
  assert (D1 : len (sub2 (val2 (SFdiv 53 1024 (fst d) n, SFdiv 53 1024 (snd d) n)) q) <= U * len q + 2 * eta) by (apply len_comp; auto; lra).
  assert (D2 : len (sub2 q (unit2 v)) <= 785 / 100 * U).
  { pose proof (len_tri (/ w * fst (sub2 (val2 d) v), / w * snd (sub2 (val2 d) v)) ((/ w - / l) * fst v, (/ w - / l) * snd v)) as T. rewrite !len_scal in T. cbn [fst snd] in T.
    assert (IW : 0 < / w) by (apply Rinv_0_lt_compat; lra). rewrite (Rabs_pos_eq (/ w)) in T by lra. fold l in T.
    assert (EQ : sub2 q (unit2 v) = (/ w * fst (sub2 (val2 d) v) + (/ w - / l) * fst v, / w * snd (sub2 (val2 d) v) + (/ w - / l) * snd v)) by (unfold sub2, q, unit2, val2; cbn [fst snd]; fold l; f_equal; unfold Rdiv; ring).
    rewrite EQ. eapply Rle_trans; [exact T|]. replace (Rabs (/ w - / l) * l) with (/ w * Rabs (w - l)).
    - assert (Rabs (w - l) <= 61 / 10 * (U * l)) by (apply Rabs_le; lra). apply Rle_trans with (/ w * (1002 / 1000 * (U * l) + 61 / 10 * (U * l))).
      + rewrite Rmult_plus_distr_l. apply Rplus_le_compat; apply Rmult_le_compat_l; lra.
      + replace (/ w * (1002 / 1000 * (U * l) + 61 / 10 * (U * l))) with (l / w * U * (7102 / 1000)) by (unfold Rdiv; field; lra). nra.
    - replace (/ w - / l) with (/ w * / l * - (w - l)) by (field; lra). rewrite !Rabs_mult, Rabs_Ropp, (Rabs_pos_eq (/ w)), (Rabs_pos_eq (/ l)) by (apply Rlt_le, Rinv_0_lt_compat; lra). field. lra. }
  pose proof (len_tri (sub2 (val2 (SFdiv 53 1024 (fst d) n, SFdiv 53 1024 (snd d) n)) q) (sub2 q (unit2 v))) as T.
  change (@fdiv _ AF) with (SFdiv 53 1024). match goal with |- len ?x <= _ => replace x with (fst (sub2 (val2 (SFdiv 53 1024 (fst d) n, SFdiv 53 1024 (snd d) n)) q) + fst (sub2 q (unit2 v)), snd (sub2 (val2 (SFdiv 53 1024 (fst d) n, SFdiv 53 1024 (snd d) n)) q) + snd (sub2 q (unit2 v))) by (unfold sub2, val2, q, unit2; cbn [fst snd]; f_equal; ring) end.
  pose proof tU. assert (U * len q <= U * (1102 / 1000)) by (apply Rmult_le_compat_l; lra). lra.
Qed.

(** products of unit vectors *)
Lemma prods_ap a b u v w z : 0 <= z -> Rabs (a - u) <= z * Rabs u + eta -> Rabs (b - v) <= z * Rabs v + eta -> Rabs u + Rabs v <= w -> Rabs (a - u) + Rabs (b - v) <= z * w + 2 * eta.
Proof. intros Z A B C. assert (z * (Rabs u + Rabs v) <= z * w) by now apply Rmult_le_compat_l. lra. Qed.
Lemma abs_dot a b c d : Rabs (a * c) + Rabs (b * d) <= len (a, b) * len (c, d).
Proof.
  rewrite !Rabs_mult. pose proof (dot_le (Rabs a, Rabs b) (Rabs c, Rabs d)) as D. unfold dotR in D. cbn [fst snd] in D.
  assert (E : forall x y, len (Rabs x, Rabs y) = len (x, y)). { intros x y. apply Rle_antisym; apply len_le; rewrite Rabs_Rabsolu; apply Rle_refl. }
  rewrite !E, Rabs_pos_eq in D; auto. pose proof (Rabs_pos a). pose proof (Rabs_pos b). pose proof (Rabs_pos c). pose proof (Rabs_pos d). nra.
Qed.
Lemma mul_small x y : finite64 x -> finite64 y -> Rabs (value x) <= 2 -> Rabs (value y) <= 2 ->
  finite64 (SFmul 53 1024 x y) /\ Rabs (value (SFmul 53 1024 x y) - value x * value y) <= U * Rabs (value x * value y) + eta.
Proof.
  intros Fx Fy Bx By. destruct (mul_real x y Fx Fy) as [F E].
  { rewrite <- !value_r64. apply (big_lt' _ 2); [lia | lia|]. rewrite Rabs_mult. change (bp 2) with 4. pose proof (Rabs_pos (value x)). pose proof (Rabs_pos (value y)). nra. }
  rewrite <- !value_r64 in E. split; auto. rewrite E. apply rnd_std.
Qed.
Section Units.
Variables (c d : spec_float * spec_float) (u v : R * R).
Hypothesis Hc : apv c u 1 (9 * U).
Hypothesis Hd : apv d v 1 (9 * U).
Lemma unit_len : len (val2 c) <= 1001 / 1000 /\ len (val2 d) <= 1001 / 1000.
Proof. pose proof (apv_len _ _ _ _ Hc). pose proof (apv_len _ _ _ _ Hd). pose proof U_small. lra. Qed.
Lemma len_prod : len (val2 c) * len (val2 d) <= 1003 / 1000.
Proof. destruct unit_len. pose proof (len_nonneg (val2 c)). pose proof (len_nonneg (val2 d)). nra. Qed.
Lemma unit_small x : Rabs x <= len (val2 c) \/ Rabs x <= len (val2 d) -> Rabs x <= 2.
Proof. destruct unit_len. intros [?|?]; lra. Qed.
Lemma near_prod (f : R * R -> R * R -> R) : (forall a b, Rabs (f a b) <= len a * len b) -> (forall a b e g, f a b - f e g = f (sub2 a e) b + f e (sub2 b g)) ->
  Rabs (f (val2 c) (val2 d) - f u v) <= 182 / 10 * U.
Proof.
  intros B S. rewrite S. eapply Rle_trans; [apply Rabs_triang|]. destruct unit_len as [U1 U2]. destruct Hc as (_ & _ & C1 & C2), Hd as (_ & _ & D1 & D2). pose proof U_small.
  pose proof (len_nonneg u). pose proof (len_nonneg (sub2 (val2 c) u)). pose proof (len_nonneg (val2 d)). pose proof (len_nonneg (sub2 (val2 d) v)).
  eapply Rle_trans; [apply Rplus_le_compat; apply B|]. apply Rle_trans with (9 * U * (1001 / 1000) + 1 * (9 * U)); [apply Rplus_le_compat; apply Rmult_le_compat; auto | lra].
Qed.
Lemma cross_ap : ap (fst c *f snd d -f snd c *f fst d) (crossR u v) 1 (21 * U).
Proof.
  pose proof U_small as US. pose proof eta_t as (T1 & T2 & T3 & T4). pose proof tU as TU. pose proof t_pos as TP. pose proof (comp_le (val2 c)) as [Cx Cy]. pose proof (comp_le (val2 d)) as [Dx Dy].
  assert (NP := near_prod crossR cross_le ltac:(intros; unfold crossR, sub2; cbn [fst snd]; ring)).
  assert (LU : Rabs (crossR u v) <= 1). { eapply Rle_trans; [apply cross_le|]. destruct Hc as (_ & _ & C1 & _), Hd as (_ & _ & D1 & _). pose proof (len_nonneg u). pose proof (len_nonneg v). nra. }
  destruct (mul_small (fst c) (snd d)) as (F1 & E1); [apply Hc | apply Hd | apply unit_small; now left | apply unit_small; now right|].
  destruct (mul_small (snd c) (fst d)) as (F2 & E2); [apply Hc | apply Hd | apply unit_small; now left | apply unit_small; now right|].
  change (@fmul _ AF) with (SFmul 53 1024). change (@fsub _ AF) with (SFsub 53 1024). set (p := SFmul 53 1024 (fst c) (snd d)) in *. set (q := SFmul 53 1024 (snd c) (fst d)) in *.
  pose proof (prods_ap _ _ _ _ (1003 / 1000) U ltac:(lra) E1 E2) as P. specialize (P ltac:(eapply Rle_trans; [|apply len_prod]; pose proof (abs_dot (value (fst c)) (value (snd c)) (value (snd d)) (value (fst d))) as AD; unfold val2; replace (len (value (fst d), value (snd d))) with (len (value (snd d), value (fst d))) by (unfold len; cbn [fst snd]; f_equal; ring); exact AD)).
  assert (D : Rabs (value p - value q - crossR u v) <= 195 / 10 * U).
  { replace (value p - value q - crossR u v) with ((value p - value (fst c) * value (snd d)) - (value q - value (snd c) * value (fst d)) + (crossR (val2 c) (val2 d) - crossR u v)) by (unfold crossR, val2; cbn [fst snd]; ring).
    eapply Rle_trans; [apply Rabs_triang|]. unfold Rminus at 1. eapply Rle_trans; [apply Rplus_le_compat_r, Rabs_triang|]. rewrite Rabs_Ropp. lra. }
  destruct (sub_real p q F1 F2) as [F E].
  { rewrite <- !value_r64. apply (big_lt' _ 1); [lia | lia|]. change (bp 1) with 2. apply Rabs_le_inv in D, LU. apply Rabs_le. lra. }
  rewrite <- !value_r64 in E. eapply ap_weaken; [exact (op_ap _ _ _ _ _ F E LU D) | lra|]. nra.
Qed.
Lemma dot_ap : ap (v2dot c d) (dotR u v) 1 (21 * U).
Proof.
  pose proof U_small as US. pose proof eta_t as (T1 & T2 & T3 & T4). pose proof tU as TU. pose proof t_pos as TP. pose proof (comp_le (val2 c)) as [Cx Cy]. pose proof (comp_le (val2 d)) as [Dx Dy].
  assert (NP := near_prod dotR dot_le ltac:(intros; unfold dotR, sub2; cbn [fst snd]; ring)).
  assert (LU : Rabs (dotR u v) <= 1). { eapply Rle_trans; [apply dot_le|]. destruct Hc as (_ & _ & C1 & _), Hd as (_ & _ & D1 & _). pose proof (len_nonneg u). pose proof (len_nonneg v). nra. }
  destruct (mul_small (fst c) (fst d)) as (F1 & E1); [apply Hc | apply Hd | apply unit_small; now left | apply unit_small; now right|].
  destruct (mul_small (snd c) (snd d)) as (F2 & E2); [apply Hc | apply Hd | apply unit_small; now left | apply unit_small; now right|].
  unfold v2dot. change (@fmul _ AF) with (SFmul 53 1024). change (@fadd _ AF) with (SFadd 53 1024). set (p := SFmul 53 1024 (fst c) (fst d)) in *. set (q := SFmul 53 1024 (snd c) (snd d)) in *.
  pose proof (prods_ap _ _ _ _ (1003 / 1000) U ltac:(lra) E1 E2) as P. specialize (P ltac:(eapply Rle_trans; [|apply len_prod]; apply abs_dot)).
  assert (D : Rabs (value p + value q - dotR u v) <= 195 / 10 * U).
  { replace (value p + value q - dotR u v) with ((value p - value (fst c) * value (fst d)) + (value q - value (snd c) * value (snd d)) + (dotR (val2 c) (val2 d) - dotR u v)) by (unfold dotR, val2; cbn [fst snd]; ring).
    eapply Rle_trans; [apply Rabs_triang|]. eapply Rle_trans; [apply Rplus_le_compat_r, Rabs_triang|]. lra. }
  destruct (add_real p q F1 F2) as [F E].
  { rewrite <- !value_r64. apply (big_lt' _ 1); [lia | lia|]. change (bp 1) with 2. apply Rabs_le_inv in D, LU. apply Rabs_le. lra. }
  rewrite <- !value_r64 in E. eapply ap_weaken; [exact (op_ap _ _ _ _ _ F E LU D) | lra|]. nra.
Qed.
End Units.
End FL.
