(** * Binary64 operations as rounded real operations (through Flocq; proofs only) *)
From Coq Require Import ZArith Bool Reals Lra Lia Floats.SpecFloat.
From Flocq Require Import Core.Core IEEE754.BinarySingleNaN.
From Verif Require Import ArithF.
Local Open Scope R_scope.

Notation fexp64 := (SpecFloat.fexp 53 1024).
Notation rnd64 := (round radix2 fexp64 (round_mode mode_NE)).
Definition r64 (x : spec_float) : R := SF2R radix2 x.
Definition valid64 (x : spec_float) : Prop := valid_binary 53 1024 x = true.
Definition real64 (x : spec_float) : Prop := valid64 x /\ fin64 x = true.

#[local] Instance Hprec64 : FLX.Prec_gt_0 53 := eq_refl.
#[local] Instance Hmax64 : Prec_lt_emax 53 1024 := eq_refl.
#[local] Instance Hvexp : Valid_exp fexp64 := fexp_correct 53 1024 Hprec64.

Lemma rne_equiv s m l : round_nearest_even m l = choice_mode mode_NE s m l.
Proof. destruct l as [|c]; [reflexivity|]. destruct c; try reflexivity. simpl. unfold Round.cond_incr. now destruct (Z.even m). Qed.
Lemma bra_equiv sx mx ex lx : SpecFloat.binary_round_aux 53 1024 sx mx ex lx = BinarySingleNaN.binary_round_aux 53 1024 mode_NE sx mx ex lx.
Proof.
  unfold SpecFloat.binary_round_aux, BinarySingleNaN.binary_round_aux. destruct (shr_fexp _ _ _ _) as [m e]. now rewrite (rne_equiv sx).
Qed.
Lemma br_equiv s m e : SpecFloat.binary_round 53 1024 s m e = BinarySingleNaN.binary_round 53 1024 mode_NE s m e.
Proof. unfold SpecFloat.binary_round, BinarySingleNaN.binary_round, shl_align_fexp. destruct (shl_align _ _ _). apply bra_equiv. Qed.
Lemma bn_equiv m e z : SpecFloat.binary_normalize 53 1024 m e z = B2SF (BinarySingleNaN.binary_normalize 53 1024 Hprec64 Hmax64 mode_NE m e z).
Proof. destruct m as [|p|p]; simpl; auto; rewrite B2SF_SF2B; apply br_equiv. Qed.

Section B.
Variables (x y : spec_float).
Hypothesis Vx : valid64 x.
Hypothesis Vy : valid64 y.
Let bx := SF2B x Vx.
Let by_ := SF2B y Vy.
Lemma bx_eq : B2SF bx = x. Proof. apply B2SF_SF2B. Qed.
Lemma by_eq : B2SF by_ = y. Proof. apply B2SF_SF2B. Qed.
Lemma mul_eq : SFmul 53 1024 x y = B2SF (Bmult mode_NE bx by_).
Proof.
  rewrite <- bx_eq, <- by_eq at 1. destruct bx as [sx|sx| |sx mx ex Bx], by_ as [sy|sy| |sy my ey By]; try reflexivity.
  simpl. rewrite B2SF_SF2B. apply bra_equiv.
Qed.
Lemma add_eq : SFadd 53 1024 x y = B2SF (Bplus mode_NE bx by_).
Proof.
  rewrite <- bx_eq, <- by_eq at 1. destruct bx as [sx|sx| |sx mx ex Bx], by_ as [sy|sy| |sy my ey By]; try reflexivity; try (simpl; now destruct (Bool.eqb _ _)).
  apply bn_equiv.
Qed.
Lemma sub_eq : SFsub 53 1024 x y = B2SF (Bminus mode_NE bx by_).
Proof.
  rewrite <- bx_eq, <- by_eq at 1. destruct bx as [sx|sx| |sx mx ex Bx], by_ as [sy|sy| |sy my ey By]; try reflexivity; try (simpl; now destruct (Bool.eqb _ _)).
  simpl. unfold Zminus. rewrite <- cond_Zopp_negb. apply bn_equiv.
Qed.
Lemma div_eq : SFdiv 53 1024 x y = B2SF (Bdiv mode_NE bx by_).
Proof.
  rewrite <- bx_eq, <- by_eq at 1. destruct bx as [sx|sx| |sx mx ex Bx], by_ as [sy|sy| |sy my ey By]; try reflexivity; try (simpl; now destruct (Bool.eqb _ _)).
  simpl. rewrite B2SF_SF2B. destruct (SFdiv_core_binary _ _ _ _ _ _) as [[mz ez] lz]. apply bra_equiv.
Qed.
Lemma sqrt_eq : SFsqrt 53 1024 x = B2SF (Bsqrt mode_NE bx).
Proof.
  rewrite <- bx_eq at 1. destruct bx as [sx|sx| |sx mx ex Bx]; try reflexivity; try (now destruct sx).
  destruct sx; [reflexivity|]. simpl. rewrite B2SF_SF2B. destruct (SFsqrt_core_binary _ _ _ _) as [[mz ez] lz]. apply bra_equiv.
Qed.
Lemma bx_R : B2R bx = r64 x. Proof. apply B2R_SF2B. Qed.
Lemma by_R : B2R by_ = r64 y. Proof. apply B2R_SF2B. Qed.
Lemma bx_fin : is_finite bx = fin64 x. Proof. unfold bx. rewrite is_finite_SF2B. now destruct x. Qed.
Lemma by_fin : is_finite by_ = fin64 y. Proof. unfold by_. rewrite is_finite_SF2B. now destruct y. Qed.
End B.
Lemma fin_B2SF (b : binary_float 53 1024) : fin64 (B2SF b) = is_finite b. Proof. now destruct b. Qed.
Lemma r64_B2SF (b : binary_float 53 1024) : r64 (B2SF b) = B2R b. Proof. now destruct b. Qed.
Lemma valid_B2SF (b : binary_float 53 1024) : valid64 (B2SF b). Proof. apply valid_binary_B2SF. Qed.

(** every operation on binary64 numbers gives a binary64 number, infinity or NaN *)
Lemma valid_ops x y : valid64 x -> valid64 y ->
  valid64 (SFadd 53 1024 x y) /\ valid64 (SFsub 53 1024 x y) /\ valid64 (SFmul 53 1024 x y) /\ valid64 (SFdiv 53 1024 x y) /\ valid64 (SFsqrt 53 1024 x) /\ valid64 (SFopp x) /\ valid64 (SFabs x).
Proof.
  intros Vx Vy. rewrite (add_eq x y Vx Vy), (sub_eq x y Vx Vy), (mul_eq x y Vx Vy), (div_eq x y Vx Vy), (sqrt_eq x Vx).
  repeat (split; [apply valid_B2SF|]). split; destruct x; simpl; auto.
Qed.
Lemma add_real x y : real64 x -> real64 y -> Rabs (rnd64 (r64 x + r64 y)) < bpow radix2 1024 ->
  real64 (SFadd 53 1024 x y) /\ r64 (SFadd 53 1024 x y) = rnd64 (r64 x + r64 y).
Proof.
  intros [Vx Fx] [Vy Fy] H. rewrite (add_eq x y Vx Vy). pose proof (Bplus_correct 53 1024 _ _ mode_NE (SF2B x Vx) (SF2B y Vy)) as C.
  rewrite bx_fin, by_fin, bx_R, by_R in C. specialize (C Fx Fy). rewrite Rlt_bool_true in C by exact H. destruct C as (C1 & C2 & _).
  split; [split; [apply valid_B2SF | now rewrite fin_B2SF] | now rewrite r64_B2SF].
Qed.
Lemma sub_real x y : real64 x -> real64 y -> Rabs (rnd64 (r64 x - r64 y)) < bpow radix2 1024 ->
  real64 (SFsub 53 1024 x y) /\ r64 (SFsub 53 1024 x y) = rnd64 (r64 x - r64 y).
Proof.
  intros [Vx Fx] [Vy Fy] H. rewrite (sub_eq x y Vx Vy). pose proof (Bminus_correct 53 1024 _ _ mode_NE (SF2B x Vx) (SF2B y Vy)) as C.
  rewrite bx_fin, by_fin, bx_R, by_R in C. specialize (C Fx Fy). rewrite Rlt_bool_true in C by exact H. destruct C as (C1 & C2 & _).
  split; [split; [apply valid_B2SF | now rewrite fin_B2SF] | now rewrite r64_B2SF].
Qed.
Lemma mul_real x y : real64 x -> real64 y -> Rabs (rnd64 (r64 x * r64 y)) < bpow radix2 1024 ->
  real64 (SFmul 53 1024 x y) /\ r64 (SFmul 53 1024 x y) = rnd64 (r64 x * r64 y).
Proof.
  intros [Vx Fx] [Vy Fy] H. rewrite (mul_eq x y Vx Vy). pose proof (Bmult_correct 53 1024 _ _ mode_NE (SF2B x Vx) (SF2B y Vy)) as C.
  rewrite bx_fin, by_fin, bx_R, by_R in C. rewrite Rlt_bool_true in C by exact H. destruct C as (C1 & C2 & _).
  split; [split; [apply valid_B2SF | now rewrite fin_B2SF, C2, Fx, Fy] | now rewrite r64_B2SF].
Qed.
Lemma div_real x y : real64 x -> real64 y -> r64 y <> 0 -> Rabs (rnd64 (r64 x / r64 y)) < bpow radix2 1024 ->
  real64 (SFdiv 53 1024 x y) /\ r64 (SFdiv 53 1024 x y) = rnd64 (r64 x / r64 y).
Proof.
  intros [Vx Fx] [Vy Fy] N H. rewrite (div_eq x y Vx Vy). pose proof (Bdiv_correct 53 1024 _ _ mode_NE (SF2B x Vx) (SF2B y Vy)) as C.
  rewrite bx_fin, bx_R, by_R in C. specialize (C N). rewrite Rlt_bool_true in C by exact H. destruct C as (C1 & C2 & _).
  split; [split; [apply valid_B2SF | now rewrite fin_B2SF, C2, Fx] | now rewrite r64_B2SF].
Qed.
Lemma sqrt_real x : real64 x -> 0 <= r64 x -> real64 (SFsqrt 53 1024 x) /\ r64 (SFsqrt 53 1024 x) = rnd64 (sqrt (r64 x)).
Proof.
  intros [Vx Fx] H. rewrite (sqrt_eq x Vx). pose proof (Bsqrt_correct 53 1024 _ _ mode_NE (SF2B x Vx)) as (C1 & C2 & _).
  rewrite bx_R in C1. split; [split; [apply valid_B2SF|] | now rewrite r64_B2SF].
  rewrite fin_B2SF, C2. clear C1 C2. destruct x as [s|s| |s m e]; try discriminate; auto. destruct s; auto. exfalso.
  unfold r64, SF2R in H. simpl in H. apply F2R_ge_0 in H || (assert (F2R (Float radix2 (Z.neg m) e) < 0) by (apply F2R_lt_0; reflexivity); simpl in *; lra).
Qed.
Lemma opp_real x : real64 x -> real64 (SFopp x) /\ r64 (SFopp x) = - r64 x.
Proof.
  intros [Vx Fx]. split; [split; destruct x; auto|]. unfold r64. destruct x as [s|s| |s m e]; simpl; try lra.
  rewrite <- F2R_Zopp. f_equal. f_equal. now destruct s.
Qed.
