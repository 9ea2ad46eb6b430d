(** * Gradient descent and BFGS do not increase the loss in binary64 *)
From Coq Require Import List ZArith NArith Arith Bool Reals Lra Lia Floats.SpecFloat.
From Flocq Require Import Core.Core IEEE754.BinarySingleNaN.
From Verif Require Import Arith Vec Prim Cons Sketch Solve Api Spec SerdeSpec SolverSpec NumSpec NumLemmas ArithF FloatLemmas FloatBound
  HeapLemmas DataLemmas GradLemmas SolveLemmas SpecLemmas SearchLemmas StepLemmas.
Import ListNotations.

#[local] Existing Instance Hprec64.
#[local] Existing Instance Hmax64.
#[local] Instance Hvexp' : Valid_exp fexp64 := fexp_correct 53 1024 Hprec64.

Lemma canonical_closed L : libm64 L -> @closed _ (ArithF L) canonical.
Proof.
  intros [H1 H2].
  constructor; intros; try (apply H1; auto; fail); try (apply (valid_ops x y); auto; fail); try (apply (valid_ops x x); auto; fail).
  - assert (HZ : forall z, canonical (of_Z64 z)).
    { intros z. unfold canonical, of_Z64. change (valid64 (SpecFloat.binary_normalize 53 1024 z 0 false)). rewrite bn_equiv. apply valid_B2SF. }
    change (canonical (lit64 m k)). unfold lit64. destruct k; [apply HZ|].
    exact (proj1 (proj2 (proj2 (proj2 (valid_ops _ _ (HZ m) (HZ (10 ^ Z.of_nat (S k))%Z)))))).
  - reflexivity.
Qed.

Lemma canon_add x y : canonical x -> canonical y -> canonical (SFadd 53 1024 x y). Proof. intros. now apply (valid_ops x y). Qed.
Lemma canon_mul x y : canonical x -> canonical y -> canonical (SFmul 53 1024 x y). Proof. intros. now apply (valid_ops x y). Qed.

(** ** Signs *)
Definition pos_or_nan (x : spec_float) : Prop := match x with S754_nan => True | S754_zero s | S754_infinity s | S754_finite s _ _ => s = false end.
Definition neg_or_nan (x : spec_float) : Prop := match x with S754_nan => True | S754_zero s | S754_infinity s | S754_finite s _ _ => s = true end.
Lemma bra_sign s m e l : match SpecFloat.binary_round_aux 53 1024 s m e l with S754_nan => True | S754_zero t | S754_infinity t | S754_finite t _ _ => t = s end.
Proof.
  unfold SpecFloat.binary_round_aux. destruct (shr_fexp _ _ _ _ _). destruct (shr_fexp _ _ _ _ _). destruct (shr_m _); auto.
  destruct (_ <=? _)%Z; auto.
Qed.
Lemma mul_pos x y : pos_or_nan x -> pos_or_nan y -> pos_or_nan (SFmul 53 1024 x y).
Proof.
  destruct x, y; simpl; auto; intros -> ->; auto.
  match goal with |- context [SpecFloat.binary_round_aux 53 1024 ?s ?m ?e ?l] => pose proof (bra_sign s m e l) as H end.
  exact H.
Qed.
Lemma mul_neg x y : pos_or_nan x -> neg_or_nan y -> neg_or_nan (SFmul 53 1024 x y).
Proof.
  destruct x, y; simpl; auto; intros -> ->; auto.
  match goal with |- context [SpecFloat.binary_round_aux 53 1024 ?s ?m ?e ?l] => pose proof (bra_sign s m e l) as H end.
  exact H.
Qed.
Lemma not_ge_neg m : SFleb (S754_zero false) m = false -> neg_or_nan m.
Proof. destruct m as [[]|[]| |[]]; simpl; auto; discriminate. Qed.

(** ** Order *)
Local Open Scope R_scope.
Lemma leb_refl x : x <> S754_nan -> SFleb x x = true.
Proof.
  intros H. destruct x as [[]|[]| |[] m e]; try reflexivity; try congruence; unfold SFleb, SFcompare;
    now rewrite Z.compare_refl, Pos.compare_cont_refl.
Qed.
Lemma leb_trans x y z : canonical x -> canonical y -> canonical z -> SFleb x y = true -> SFleb y z = true -> SFleb x z = true.
Proof.
  intros Vx Vy Vz H1 H2.
  destruct (fin64 x) eqn:Fx; destruct (fin64 y) eqn:Fy; destruct (fin64 z) eqn:Fz.
  { assert (real64 x /\ real64 y /\ real64 z) as (Rx & Ry & Rz) by (unfold real64; auto).
    apply leb_R in H1; auto. apply leb_R in H2; auto. apply leb_R; auto. lra. }
  all: destruct x as [[]|[]| |[]]; try discriminate; destruct y as [[]|[]| |[]]; try discriminate; destruct z as [[]|[]| |[]]; try discriminate; auto.
Qed.
Lemma add_neg_le x t : canonical x -> canonical t -> neg_or_nan t -> SFadd 53 1024 x t = S754_nan \/ SFleb (SFadd 53 1024 x t) x = true.
Proof.
  intros Vx Vt Nt. destruct x as [sx|sx| |sx mx ex]; destruct t as [st|st| |st mt et]; simpl in Nt; subst; auto; try (destruct sx; simpl; auto; fail).
  - right. replace (SFadd 53 1024 (S754_finite sx mx ex) (S754_zero true)) with (S754_finite sx mx ex) by reflexivity. apply leb_refl. discriminate.
  - set (x := S754_finite sx mx ex) in *. set (t := S754_finite true mt et) in *. right.
    assert (Rx : real64 x) by (split; auto). assert (Rt : real64 t) by (split; auto).
    assert (Tneg : r64 t < 0) by (apply F2R_lt_0; reflexivity).
    assert (Fx : generic_format radix2 fexp64 (r64 x)). { rewrite <- (bx_R x Vx). apply generic_format_B2R. }
    assert (LE : rnd64 (r64 x + r64 t) <= r64 x).
    { rewrite <- (round_generic radix2 fexp64 (round_mode mode_NE) (r64 x)) at 2 by exact Fx. apply round_le; [apply Hvexp' | apply valid_rnd_N | lra]. }
    pose proof (Bplus_correct 53 1024 _ _ mode_NE (SF2B x Vx) (SF2B t Vt)) as C.
    rewrite bx_fin, by_fin, bx_R, by_R in C. specialize (C (proj2 Rx) (proj2 Rt)).
    destruct (Rlt_bool_spec (Rabs (rnd64 (r64 x + r64 t))) (bpow radix2 1024)) as [Hb|Hb].
    + destruct (add_real x t Rx Rt Hb) as [R1 E1]. apply leb_R; auto. now rewrite E1.
    + destruct C as [C1 C2]. assert (E : SFadd 53 1024 x t = S754_infinity true).
      { rewrite (add_eq x t Vx Vt). etransitivity; [exact C1|]. rewrite C2. reflexivity. }
      rewrite E. reflexivity.
Qed.
Lemma add_comm64 x y : SFadd 53 1024 x y = SFadd 53 1024 y x.
Proof.
  destruct x as [sx|sx| |sx mx ex], y as [sy|sy| |sy my ey]; auto; try (destruct sx, sy; reflexivity).
  simpl. rewrite (Z.min_comm ey ex). f_equal. apply Z.add_comm.
Qed.
Lemma one_val : lit64 1 0 = S754_finite false 4503599627370496 (-52). Proof. reflexivity. Qed.
Lemma mul_one64 x : canonical x -> SFmul 53 1024 (lit64 1 0) x = x.
Proof.
  intros Vx. destruct x as [s|s| |s m e]; try reflexivity; try (destruct s; reflexivity).
  set (x := S754_finite s m e) in *. assert (V1 : valid64 (lit64 1 0)) by reflexivity.
  assert (R1 : r64 (lit64 1 0) = 1). { rewrite one_val. unfold r64, SF2R, F2R. simpl. lra. }
  assert (Fx : generic_format radix2 fexp64 (r64 x)). { rewrite <- (bx_R x Vx). apply generic_format_B2R. }
  pose proof (Bmult_correct 53 1024 _ _ mode_NE (SF2B _ V1) (SF2B x Vx)) as C.
  rewrite bx_R, by_R, R1, Rmult_1_l in C. rewrite round_generic in C; [|apply valid_rnd_N|exact Fx].
  rewrite Rlt_bool_true in C. 2:{ rewrite <- (bx_R x Vx). apply abs_B2R_lt_emax. }
  destruct C as (C1 & C2 & C3). rewrite (mul_eq _ x V1 Vx). rewrite <- (bx_eq x Vx) at 2. f_equal.
  apply B2R_Bsign_inj.
  - rewrite C2, bx_fin, by_fin. reflexivity.
  - rewrite bx_fin. reflexivity.
  - rewrite C1, bx_R. reflexivity.
  - rewrite C3.
    + replace (Bsign (SF2B (lit64 1 0) V1)) with false; [apply Bool.xorb_false_l|].
      clear. generalize V1. rewrite one_val. reflexivity.
    + destruct (Bmult mode_NE (SF2B (lit64 1 0) V1) (SF2B x Vx)) eqn:E; auto.
Qed.

(** what the first Wolfe condition says in binary64 *)
Lemma accept64 l l' a m : canonical l -> canonical l' -> canonical a -> canonical m -> pos_or_nan a ->
  SFleb (S754_zero false) m = false ->
  SFleb l' (SFadd 53 1024 l (SFmul 53 1024 (SFmul 53 1024 (lit64 1 4) a) m)) = true -> SFleb l' l = true.
Proof.
  intros Vl Vl' Va Vm Pa Hm Hl.
  assert (V1 : canonical (SFmul 53 1024 (lit64 1 4) a)) by (apply canon_mul; [vm_compute; reflexivity | exact Va]).
  assert (P1 : pos_or_nan (SFmul 53 1024 (lit64 1 4) a)) by (apply mul_pos; [vm_compute; reflexivity | exact Pa]).
  assert (Nt := mul_neg _ _ P1 (not_ge_neg _ Hm)). assert (Vt := canon_mul _ _ V1 Vm).
  generalize dependent (SFmul 53 1024 (SFmul 53 1024 (lit64 1 4) a) m). intros t Hl Nt Vt.
  destruct (add_neg_le l t Vl Vt Nt) as [N|Hle].
  - rewrite N in Hl. destruct l' as [[]|[]| |[]]; discriminate.
  - exact (leb_trans _ _ _ Vl' (canon_add _ _ Vl Vt) Vl Hl Hle).
Qed.

(** ** Steps *)
Section S.
Variable L : libm.
#[local] Instance AF : Arith spec_float := ArithF L.
Hypothesis HL : libm64 L.
Notation hV := (NumLemmas.hV canonical).
Let C : closed canonical := canonical_closed L HL.
Notation VV := (List.Forall canonical).

Lemma axpy_point a (d x : vec spec_float) : VV x -> vaxpy a d (flit 1 0) x = vadd x (vscale a d).
Proof.
  intros H. revert d. induction H as [|x0 x Hx H IH]; intros [|y d]; try reflexivity.
  unfold vaxpy, vadd, vscale in *. cbn [map2 map]. rewrite IH. f_equal.
  change (SFadd 53 1024 (SFmul 53 1024 a y) (SFmul 53 1024 (lit64 1 0) x0) = SFadd 53 1024 x0 (SFmul 53 1024 a y)).
  rewrite mul_one64 by exact Hx. apply add_comm64.
Qed.
Lemma trial_pos h s d m k a : trial h s d m k a -> pos_or_nan a.
Proof.
  induction 1.
  - reflexivity.
  - apply (mul_pos a (lit64 5 1)); [auto|]. reflexivity.
  - apply (mul_pos a (lit64 15 1)); [auto|]. vm_compute. reflexivity.
Qed.
Lemma accept_le s d g (h h' : heap spec_float) alpha : valid h s -> hV h -> VV d -> VV g ->
  line_search_wolfe s d g h = (h', Val (LOk alpha)) ->
  at_point h s (vadd (get_data h s) (vscale alpha d)) h' /\ SFleb (get_loss h' s) (get_loss h s) = true.
Proof.
  intros V Hh Hd Hg E. destruct (C24_ok_lemma _ _ _ _ _ _ V E) as (Hm & Ha & Hl & _ & k & _ & Ht). split; auto.
  destruct (ofval canonical _ _ _ _ _ (search_K canonical C s d g Hd) Hh E) as [Hh' Hal]. simpl in Hal.
  apply (accept64 (get_loss h s) (get_loss h' s) alpha (vdot g d)).
  - exact (get_loss_V canonical C h s Hh).
  - exact (get_loss_V canonical C h' s Hh').
  - exact Hal.
  - exact (V_dot canonical C g d Hg Hd).
  - exact (trial_pos _ _ _ _ _ _ Ht).
  - exact Hm.
  - exact Hl.
Qed.
Lemma set_same_point s x (h h2 h3 : heap spec_float) u : valid h s -> at_point h s x h2 -> set_data s x h2 = (h3, Val u) -> sdeq h2 h3.
Proof.
  intros V Ha Ed. pose proof Ha as Ha'. apply at_frame in Ha' as [Hf _]; auto.
  assert (V2 : valid h2 s) by (eapply valid_struct; [exact V | now apply (frame_struct s)]).
  eapply at_unique; [exact Ha | | exact V]. apply at_frame; auto. split.
  - eapply frame_trans; [exact Hf | eapply set_frame, Ed].
  - destruct u. eapply C09_set_get; eauto.
Qed.

Definition le_loss (n : nat) (l l' : spec_float) : Prop := (n = 0%nat -> l' = l) /\ ((0 < n)%nat -> SFleb l' l = true).
Lemma le_loss_S n l l1 l2 : canonical l -> canonical l1 -> canonical l2 -> le_loss n l l1 -> SFleb l2 l1 = true -> le_loss (S n) l l2.
Proof.
  intros V1 V2 V3 [H1 H2] H. split; [lia|]. intros _. destruct n; [rewrite <- (H1 eq_refl); exact H|].
  apply (leb_trans l2 l1 l V3 V2 V1 H). apply H2. lia.
Qed.
Lemma gd_mono s (h hn : heap spec_float) n : valid h s -> hV h -> gd_steps s h n hn -> le_loss n (get_loss h s) (get_loss hn s).
Proof.
  intros V Hh Hs. induction Hs as [|n hn h1 g alpha h2 h3 Hs IH Eg El Ed]; [split; [auto|lia]|].
  assert (Vn : valid hn s) by (eapply valid_struct; [exact V | apply (frame_struct s); eapply gd_steps_frame; eauto]).
  assert (Hn : hV hn) by exact (gd_steps_V canonical C _ _ _ _ Hh Hs).
  assert (S1 := gradient_sd _ _ _ _ Eg). assert (V1 : valid h1 s) by (eapply valid_struct; [exact Vn | apply S1]).
  destruct (ofval canonical _ _ _ _ _ (gradient_K canonical C s) Hn Eg) as [H1 Hg].
  assert (Hd : VV (vneg g)) by exact (VV_neg canonical C _ Hg).
  destruct (accept_le _ _ _ _ _ _ V1 H1 Hd Hg El) as [Ha Hle].
  rewrite axpy_point in Ed by (exact (get_data_V canonical C _ _ Hn)).
  rewrite <- (sd_get_data _ _ s S1) in Ed.
  assert (S3 : sdeq h2 h3) by (eapply set_same_point; eauto).
  assert (H3 : hV h3) by (eapply gd_steps_V; [exact C | exact Hh | eapply gd_step; eauto; rewrite axpy_point by (exact (get_data_V canonical C _ _ Hn)); rewrite <- (sd_get_data _ _ s S1); exact Ed]).
  rewrite (sd_get_loss _ _ s S1) in Hle. rewrite <- (sd_get_loss _ _ s S3) in Hle.
  exact (le_loss_S _ _ _ _ (get_loss_V canonical C _ s Hh) (get_loss_V canonical C _ s Hn) (get_loss_V canonical C _ s H3) IH Hle).
Qed.
Lemma bfgs_mono s (h hn : heap spec_float) n b d H : valid h s -> hV h -> bfgs_steps s h n 0 b hn d H ->
  get_data hn s = d /\ le_loss n (get_loss h s) (get_loss hn s).
Proof.
  intros V Hh Hs. remember 0%nat as k eqn:Ek in Hs. induction Hs as [|n r b hn d H h1 g alpha h2 h3 h4 g' Hs IH Eg El Ed Eg'|]; [split; [auto | split; [auto|lia]]| |discriminate].
  destruct (IH Ek) as [Hdat Hle0]. clear IH.
  assert (Vn : valid hn s) by (eapply valid_struct; [exact V | apply (frame_struct s); eapply bfgs_steps_frame; eauto]).
  destruct (bfgs_steps_V canonical C _ _ _ _ _ _ _ _ Hh Hs) as (Hn & Hd & HM).
  assert (S1 := gradient_sd _ _ _ _ Eg). assert (V1 : valid h1 s) by (eapply valid_struct; [exact Vn | apply S1]).
  destruct (ofval canonical _ _ _ _ _ (gradient_K canonical C s) Hn Eg) as [H1 Hg].
  assert (Hp : VV (mvec (mneg H) g)) by exact (VV_mvec canonical C _ _ (VM_neg canonical C _ HM) Hg).
  destruct (accept_le _ _ _ _ _ _ V1 H1 Hp Hg El) as [Ha Hle].
  rewrite (sd_get_data _ _ s S1), Hdat in Ha.
  assert (S3 : sdeq h2 h3) by (eapply set_same_point; eauto).
  assert (S4 := gradient_sd _ _ _ _ Eg').
  assert (HS : bfgs_steps s h (S n) r false h4 _ _) by (eapply bfgs_accept; eauto).
  destruct (bfgs_steps_V canonical C _ _ _ _ _ _ _ _ Hh HS) as (H4 & _).
  split.
  - rewrite (sd_get_data _ _ s S4), (sd_get_data _ _ s S3). apply Ha.
  - rewrite (sd_get_loss _ _ s S1) in Hle. rewrite <- (sd_get_loss _ _ s S3), <- (sd_get_loss _ _ s S4) in Hle.
    exact (le_loss_S _ _ _ _ (get_loss_V canonical C _ s Hh) (get_loss_V canonical C _ s Hn) (get_loss_V canonical C _ s H4) Hle0 Hle).
Qed.
End S.
