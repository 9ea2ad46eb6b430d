(** * Magnitudes of binary64 results (proofs for C50) *)
From Coq Require Import List ZArith Bool Reals Lra Lia Floats.SpecFloat.
From Flocq Require Import Core.Core IEEE754.BinarySingleNaN.
From Verif Require Import Arith ArithF FloatLemmas FloatSpec.
Import ListNotations.
Local Open Scope R_scope.

#[local] Instance Hp64 : FLX.Prec_gt_0 53 := eq_refl.
#[local] Instance Hm64 : Prec_lt_emax 53 1024 := eq_refl.
#[local] Instance Hve : Valid_exp fexp64 := fexp_correct 53 1024 Hp64.
Notation bp := (bpow radix2).

Lemma bp_format k : (-1074 <= k)%Z -> generic_format radix2 fexp64 (bp k).
Proof. intros H. apply generic_format_bpow. unfold SpecFloat.fexp, SpecFloat.emin. lia. Qed.
Lemma rnd_le x k : (-1074 <= k)%Z -> Rabs x <= bp k -> Rabs (rnd64 x) <= bp k.
Proof. intros H B. apply abs_round_le_generic; auto with typeclass_instances. now apply bp_format. Qed.
Lemma rnd_ge x k : (-1074 <= k)%Z -> bp k <= x -> bp k <= rnd64 x.
Proof. intros H B. apply round_ge_generic; auto with typeclass_instances. now apply bp_format. Qed.
Lemma rnd_nonneg x : 0 <= x -> 0 <= rnd64 x.
Proof. intros H. apply round_ge_generic; auto with typeclass_instances. apply generic_format_0. Qed.
Lemma bp_lt a b : (a < b)%Z -> bp a < bp b. Proof. apply bpow_lt. Qed.
Lemma bp_le a b : (a <= b)%Z -> bp a <= bp b. Proof. apply bpow_le. Qed.

Definition bnd (k : Z) (x : spec_float) : Prop := real64 x /\ Rabs (r64 x) <= bp k.
Definition lob (k : Z) (x : spec_float) : Prop := bp k <= r64 x.
Definition inr (k : Z) : bool := ((-1074 <=? k) && (k <=? 1023))%Z.
Lemma inr_spec k : inr k = true -> (-1074 <= k /\ k <= 1023)%Z.
Proof. unfold inr. intros H. apply andb_true_iff in H. lia. Qed.
Lemma bnd_weaken a b x : bnd a x -> (a <=? b)%Z = true -> bnd b x.
Proof. intros [R B] H. split; auto. apply Z.leb_le in H. pose proof (bp_le a b H). lra. Qed.
Lemma bnd_fin k x : bnd k x -> fin64 x = true. Proof. intros [[_ H] _]. exact H. Qed.

Lemma sum_le a b u v : Rabs u <= bp a -> Rabs v <= bp b -> Rabs (u + v) <= bp (Z.max a b + 1).
Proof.
  intros H1 H2. rewrite bpow_plus. change (bp 1) with 2. pose proof (bp_le a (Z.max a b) ltac:(lia)). pose proof (bp_le b (Z.max a b) ltac:(lia)).
  pose proof (Rabs_triang u v). lra.
Qed.
Lemma bnd_add a b x y : bnd a x -> bnd b y -> inr (Z.max a b + 1) = true -> bnd (Z.max a b + 1) (SFadd 53 1024 x y).
Proof.
  intros [Rx Bx] [Ry By] K. apply inr_spec in K. pose proof (rnd_le _ (Z.max a b + 1) ltac:(lia) (sum_le _ _ _ _ Bx By)) as B.
  pose proof (bp_lt (Z.max a b + 1) 1024 ltac:(lia)). destruct (add_real x y Rx Ry) as [R E]; [lra|]. split; auto. now rewrite E.
Qed.
Lemma bnd_sub a b x y : bnd a x -> bnd b y -> inr (Z.max a b + 1) = true -> bnd (Z.max a b + 1) (SFsub 53 1024 x y).
Proof.
  intros [Rx Bx] [Ry By] K. apply inr_spec in K. assert (By' : Rabs (- r64 y) <= bp b) by now rewrite Rabs_Ropp.
  pose proof (rnd_le _ (Z.max a b + 1) ltac:(lia) (sum_le _ _ _ _ Bx By')) as B.
  pose proof (bp_lt (Z.max a b + 1) 1024 ltac:(lia)). destruct (sub_real x y Rx Ry) as [R E]; [unfold Rminus; lra|]. split; auto. now rewrite E.
Qed.
Lemma prod_le a b u v : Rabs u <= bp a -> Rabs v <= bp b -> Rabs (u * v) <= bp (a + b).
Proof. intros H1 H2. rewrite Rabs_mult, bpow_plus. apply Rmult_le_compat; auto; apply Rabs_pos. Qed.
Lemma bnd_mul a b x y : bnd a x -> bnd b y -> inr (a + b) = true -> bnd (a + b) (SFmul 53 1024 x y).
Proof.
  intros [Rx Bx] [Ry By] K. apply inr_spec in K. pose proof (rnd_le _ (a + b) ltac:(lia) (prod_le _ _ _ _ Bx By)) as B.
  pose proof (bp_lt (a + b) 1024 ltac:(lia)). destruct (mul_real x y Rx Ry) as [R E]; [lra|]. split; auto. now rewrite E.
Qed.
Lemma quot_le a m u v : Rabs u <= bp a -> bp m <= v -> Rabs (u / v) <= bp (a - m).
Proof.
  intros H1 H2. pose proof (bpow_gt_0 radix2 m). unfold Rdiv, Z.sub. rewrite bpow_plus, Rabs_mult, bpow_opp.
  apply Rmult_le_compat; auto using Rabs_pos. rewrite Rabs_inv, (Rabs_pos_eq v) by lra. now apply Rinv_le.
Qed.
Lemma bnd_div a b m x y : bnd a x -> bnd b y -> lob m y -> inr (a - m) = true -> bnd (a - m) (SFdiv 53 1024 x y).
Proof.
  intros [Rx Bx] [Ry By] Lo K. apply inr_spec in K. unfold lob in Lo. pose proof (bpow_gt_0 radix2 m).
  pose proof (rnd_le _ (a - m) ltac:(lia) (quot_le _ _ _ _ Bx Lo)) as B.
  pose proof (bp_lt (a - m) 1024 ltac:(lia)). destruct (div_real x y Rx Ry) as [R E]; [lra | lra |]. split; auto. now rewrite E.
Qed.
Lemma bnd_neg a x : bnd a x -> bnd a (SFopp x).
Proof. intros [Rx Bx]. destruct (opp_real x Rx) as [R E]. split; auto. now rewrite E, Rabs_Ropp. Qed.
Definition half_up (k : Z) : Z := ((k + 1) / 2)%Z.
Lemma bnd_sqrt a x : bnd a x -> 0 <= r64 x -> inr (half_up a) = true -> bnd (half_up a) (SFsqrt 53 1024 x).
Proof.
  intros [Rx Bx] P K. apply inr_spec in K. destruct (sqrt_real x Rx P) as [R E]. split; auto. rewrite E. apply rnd_le; [lia|].
  rewrite Rabs_pos_eq by apply sqrt_pos. rewrite Rabs_pos_eq in Bx by auto.
  apply Rle_trans with (sqrt (bp (half_up a) * bp (half_up a))).
  - apply sqrt_le_1_alt. rewrite <- bpow_plus. apply Rle_trans with (1 := Bx). apply bp_le. unfold half_up. pose proof (Z.div_mod (a + 1) 2). pose proof (Z.mod_pos_bound (a + 1) 2). lia.
  - rewrite sqrt_square; [lra | apply bpow_ge_0].
Qed.

(** lower bounds *)
Lemma lob_mul a b m n x y : bnd a x -> bnd b y -> inr (a + b) = true -> lob m x -> lob n y -> inr (m + n) = true -> lob (m + n) (SFmul 53 1024 x y).
Proof.
  intros [Rx Bx] [Ry By] K Lx Ly K2. apply inr_spec in K. apply inr_spec in K2. pose proof (rnd_le _ (a + b) ltac:(lia) (prod_le _ _ _ _ Bx By)) as B.
  pose proof (bp_lt (a + b) 1024 ltac:(lia)). destruct (mul_real x y Rx Ry) as [R E]; [lra|]. unfold lob. rewrite E. apply rnd_ge; [lia|].
  rewrite bpow_plus. apply Rmult_le_compat; auto; apply bpow_ge_0.
Qed.
(** squares *)
Lemma sq_nonneg a x : bnd a x -> inr (a + a) = true -> 0 <= r64 (SFmul 53 1024 x x).
Proof.
  intros [Rx Bx] K. apply inr_spec in K. pose proof (rnd_le _ (a + a) ltac:(lia) (prod_le _ _ _ _ Bx Bx)) as B.
  pose proof (bp_lt (a + a) 1024 ltac:(lia)). destruct (mul_real x x Rx Rx) as [R E]; [lra|]. rewrite E. apply rnd_nonneg. nra.
Qed.
Lemma sq_lob a m x : bnd a x -> inr (a + a) = true -> bp m <= Rabs (r64 x) -> inr (m + m) = true -> lob (m + m) (SFmul 53 1024 x x).
Proof.
  intros [Rx Bx] K Lx K2. apply inr_spec in K. apply inr_spec in K2. pose proof (rnd_le _ (a + a) ltac:(lia) (prod_le _ _ _ _ Bx Bx)) as B.
  pose proof (bp_lt (a + a) 1024 ltac:(lia)). destruct (mul_real x x Rx Rx) as [R E]; [lra|]. unfold lob. rewrite E. apply rnd_ge; [lia|].
  rewrite bpow_plus. pose proof (bpow_gt_0 radix2 m). rewrite <- (Rabs_pos_eq (r64 x * r64 x)) by nra. rewrite Rabs_mult. nra.
Qed.
Lemma add_nonneg a b x y : bnd a x -> bnd b y -> inr (Z.max a b + 1) = true -> 0 <= r64 x -> 0 <= r64 y -> 0 <= r64 (SFadd 53 1024 x y).
Proof.
  intros [Rx Bx] [Ry By] K P Q. apply inr_spec in K. pose proof (rnd_le _ (Z.max a b + 1) ltac:(lia) (sum_le _ _ _ _ Bx By)) as B.
  pose proof (bp_lt (Z.max a b + 1) 1024 ltac:(lia)). destruct (add_real x y Rx Ry) as [R E]; [lra|]. rewrite E. apply rnd_nonneg. lra.
Qed.
Lemma add_lob a b m x y : bnd a x -> bnd b y -> inr (Z.max a b + 1) = true -> inr m = true -> 0 <= r64 x -> 0 <= r64 y -> lob m x \/ lob m y -> lob m (SFadd 53 1024 x y).
Proof.
  intros [Rx Bx] [Ry By] K K2 P Q H. apply inr_spec in K. apply inr_spec in K2. pose proof (rnd_le _ (Z.max a b + 1) ltac:(lia) (sum_le _ _ _ _ Bx By)) as B.
  pose proof (bp_lt (Z.max a b + 1) 1024 ltac:(lia)). destruct (add_real x y Rx Ry) as [R E]; [lra|]. unfold lob. rewrite E. apply rnd_ge; [lia|].
  destruct H as [H|H]; unfold lob in H; lra.
Qed.
Lemma sqrt_lob a m x : bnd a x -> lob (m + m) x -> inr m = true -> lob m (SFsqrt 53 1024 x).
Proof.
  intros [Rx Bx] Lo K. apply inr_spec in K. unfold lob in *. pose proof (bpow_gt_0 radix2 (m + m)). destruct (sqrt_real x Rx ltac:(lra)) as [R E].
  rewrite E. apply rnd_ge; [lia|]. rewrite <- (sqrt_square (bp m)) by apply bpow_ge_0. apply sqrt_le_1_alt. now rewrite <- bpow_plus.
Qed.
(** adding small numbers cannot push the sum over a much larger power of two *)
Lemma rnd_sat k x : (0 <= k <= 1000)%Z -> Rabs x <= bp k + bp (k - 54) -> Rabs (rnd64 x) <= bp k.
Proof.
  intros K H. assert (U : Rabs x < (bp k + succ radix2 fexp64 (bp k)) / 2).
  { rewrite succ_eq_pos by apply bpow_ge_0. rewrite ulp_bpow.
    replace (SpecFloat.fexp 53 1024 (k + 1)) with (k - 52)%Z by (unfold SpecFloat.fexp, SpecFloat.emin; lia).
    pose proof (bp_lt (k - 54) (k - 53) ltac:(lia)). replace (k - 52)%Z with ((k - 53) + 1)%Z by lia. rewrite bpow_plus. change (bp 1) with 2. lra. }
  apply Rabs_le. rewrite <- (Rabs_pos_eq (bp k)) in U by apply bpow_ge_0. rewrite (Rabs_pos_eq (bp k)) in U by apply bpow_ge_0.
  assert (F : generic_format radix2 fexp64 (bp k)) by (apply bp_format; lia). split.
  - apply Ropp_le_cancel. rewrite Ropp_involutive. rewrite <- round_NE_opp. apply round_N_le_midp; auto with typeclass_instances.
    apply Rle_lt_trans with (2 := U). rewrite <- Rabs_Ropp. apply Rle_abs.
  - apply round_N_le_midp; auto with typeclass_instances. apply Rle_lt_trans with (2 := U). apply Rle_abs.
Qed.
Lemma bnd_sat k j x y : bnd k x -> bnd j y -> (j + 54 <= k <= 1000)%Z -> (0 <= k)%Z -> bnd k (SFadd 53 1024 x y).
Proof.
  intros [Rx Bx] [Ry By] K K0. assert (H : Rabs (r64 x + r64 y) <= bp k + bp (k - 54)).
  { pose proof (Rabs_triang (r64 x) (r64 y)). pose proof (bp_le j (k - 54) ltac:(lia)). lra. }
  apply rnd_sat in H; [|lia]. pose proof (bp_lt k 1024 ltac:(lia)). destruct (add_real x y Rx Ry) as [R E]; [lra|]. split; auto. now rewrite E.
Qed.

(** comparisons *)
Lemma leb_R x y : real64 x -> real64 y -> SFleb x y = true <-> r64 x <= r64 y.
Proof.
  intros [Vx Fx] [Vy Fy]. pose proof (Bleb_correct 53 1024 (SF2B x Vx) (SF2B y Vy)) as C. rewrite bx_fin, by_fin, bx_R, by_R in C.
  specialize (C Fx Fy). unfold Bleb in C. rewrite !B2SF_SF2B in C. rewrite C. destruct (Rle_bool_spec (r64 x) (r64 y)); split; auto; try discriminate; lra.
Qed.
Lemma ltb_R x y : real64 x -> real64 y -> SFltb x y = true <-> r64 x < r64 y.
Proof.
  intros [Vx Fx] [Vy Fy]. pose proof (Bltb_correct 53 1024 (SF2B x Vx) (SF2B y Vy)) as C. rewrite bx_fin, by_fin, bx_R, by_R in C.
  specialize (C Fx Fy). unfold Bltb in C. rewrite !B2SF_SF2B in C. rewrite C. destruct (Rlt_bool_spec (r64 x) (r64 y)); split; auto; try discriminate; lra.
Qed.
Lemma ltb_false_R x y : real64 x -> real64 y -> SFltb x y = false -> r64 y <= r64 x.
Proof. intros Rx Ry H. destruct (Rle_or_lt (r64 y) (r64 x)) as [|N]; auto. apply (ltb_R x y Rx Ry) in N. congruence. Qed.
Lemma abs_real x : real64 x -> real64 (SFabs x) /\ r64 (SFabs x) = Rabs (r64 x).
Proof.
  intros [Vx Fx]. split; [split; destruct x; auto|]. unfold r64. destruct x as [s|s| |s m e]; simpl; try (now rewrite Rabs_R0).
  rewrite <- F2R_Zabs. f_equal. f_equal. now destruct s.
Qed.
Lemma r64_pow m e k : S754_finite false m e = S754_finite false 4503599627370496 (k - 52) -> r64 (S754_finite false m e) = bp k.
Proof.
  intros E. injection E as -> ->. unfold r64, SF2R, F2R. simpl cond_Zopp. simpl Fnum. simpl Fexp. replace (k - 52)%Z with (k + -52)%Z by lia. rewrite bpow_plus.
  replace (IZR 4503599627370496) with (bp 52) by (simpl; reflexivity). rewrite (Rmult_comm (bp k)), <- Rmult_assoc, <- bpow_plus. simpl. lra.
Qed.
Lemma abs_fin x b : fin64 b = true -> SFleb (SFabs x) b = true -> fin64 x = true.
Proof. intros F H. destruct x as [s|s| |s m e]; auto; destruct b as [t|t| |t m e]; try discriminate; destruct t; discriminate. Qed.
Lemma at_most_bnd b k x : real64 b -> r64 b = bp k -> at_most b x <-> bnd k x.
Proof.
  intros Rb E. split.
  - intros [V H]. assert (F := abs_fin x b (proj2 Rb) H). assert (R : real64 x) by (split; auto). split; auto.
    destruct (abs_real x R) as [Ra Ea]. apply (leb_R _ _ Ra Rb) in H. lra.
  - intros [R H]. split; [apply R|]. destruct (abs_real x R) as [Ra Ea]. apply (leb_R _ _ Ra Rb). lra.
Qed.
Lemma one_bnd x : at_most one64 x <-> bnd 0 x.
Proof. apply at_most_bnd; [split; reflexivity|]. apply (r64_pow _ _ 0). reflexivity. Qed.
Lemma four_bnd x : at_most four64 x <-> bnd 2 x.
Proof. apply at_most_bnd; [split; reflexivity|]. apply (r64_pow _ _ 2). reflexivity. Qed.
Lemma moderate_bnd x : moderate x <-> bnd 100 x.
Proof. apply at_most_bnd; [split; reflexivity|]. apply (r64_pow _ _ 100). reflexivity. Qed.
Lemma r64_1em6 : real64 (lit64 1 6) /\ bp (-20) <= r64 (lit64 1 6).
Proof.
  rewrite lit_1em6. split; [split; reflexivity|]. unfold r64, SF2R, F2R. simpl cond_Zopp. simpl Fnum. simpl Fexp.
  replace (-20)%Z with (52 + -72)%Z by lia. rewrite bpow_plus. apply Rmult_le_compat_r; [apply bpow_ge_0|]. change (bp 52) with (IZR 4503599627370496). apply IZR_le. lia.
Qed.
